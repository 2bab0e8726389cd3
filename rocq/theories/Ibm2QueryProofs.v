From Coq Require Import Reals NArith Arith List Bool Lra Lia.
From Verif Require Import AMap MathModel LogNum LogNumProofs RSums Ibm1Spec AligSpec AligModel AligProofs Ibm1Model Ibm1QueryProofs Ibm1TrainProofs Ibm2Spec Ibm2Model.
Import ListNotations.
Open Scope R_scope.
Lemma prob_nonneg : forall {K1 K2} (d1 : forall a b : K1, {a = b} + {a <> b}) (d2 : forall a b : K2, {a = b} + {a <> b}) T s t, 0 <= prob d1 d2 T s t.
Proof. intros. apply lgexp_nonneg. Qed.
(** product over positions as a product over pairs (choice, position) *)
Lemma prod_combine : forall (f : nat -> nat -> R) a b m, length a = m ->
  prodf (fun k => f k (nth (k - b) a 0%nat)) (seq b m) = prodf (fun q => f (snd q) (fst q)) (combine a (seq b m)).
Proof.
  intros f a b m. revert a b. induction m as [|m IH]; intros a b L; [destruct a; [reflexivity|discriminate]|]. destruct a as [|x a]; [discriminate|].
  cbn [seq prodf combine fst snd]. rewrite Nat.sub_diag. cbn [nth]. f_equal. rewrite <- IH by (cbn in L; lia). apply prodf_ext. intros k Hk. apply in_seq in Hk.
  replace (k - b)%nat with (S (k - S b)) by lia. reflexivity.
Qed.
Lemma joint2_combine : forall p al ns t a, length a = length t -> joint2 p al ns t a = prodf (fun q => gen2 p al ns t (snd q) (fst q)) (combine a (seq 0 (length t))).
Proof.
  intros p al ns t a L. unfold joint2. rewrite <- (prod_combine (gen2 p al ns t) a 0 (length t) L). apply prodf_ext. intros k _. now rewrite Nat.sub_0_r.
Qed.
Lemma total2_prod : forall p al ns t, ns <> [] -> total2 p al ns t = prodf (fun k => sumf (gen2 p al ns t k) (seq 0 (length ns))) (seq 0 (length t)).
Proof.
  intros p al ns t Hn. unfold total2, alignments. replace (S (pred (length ns))) with (length ns) by (destruct ns; [congruence|reflexivity]).
  rewrite <- (sum_prod (fun i k => gen2 p al ns t k i)). rewrite seq_length. apply sumf_ext. intros a Ha. apply joint2_combine. apply seqs_in in Ha. apply Ha.
Qed.
(** generalisation of Ibm1EmProofs.post_num to any sequence *)
Lemma post_num_g : forall {T} (d : T) (p : nat -> T -> R) c i t j, NoDup c -> In i c -> (j < length t)%nat ->
  sumf (fun a => prodf (fun q => p (fst q) (snd q)) (combine a t)) (filter (fun a => Nat.eqb (nth j a 0%nat) i) (seqs c (length t))) * sumf (fun x => p x (nth j t d)) c
  = p i (nth j t d) * prodf (fun w => sumf (fun x => p x w) c) t.
Proof.
  intros T d p c i t j ND Hi Hj. rewrite sumf_filter. revert j Hj. induction t as [|w t IH]; intros j Hj; [cbn in Hj; lia|].
  cbn [length seqs]. rewrite sumf_flat_map. cbn [prodf].
  destruct j as [|j]; cbn [nth].
  - assert (E : sumf (fun x => sumf (fun a => if Nat.eqb (nth 0 a 0%nat) i then prodf (fun q => p (fst q) (snd q)) (combine a (w :: t)) else 0) (map (cons x) (seqs c (length t)))) c
              = p i w * prodf (fun w => sumf (fun x => p x w) c) t).
    { rewrite <- sum_prod. set (G := sumf _ (seqs c (length t))).
      transitivity (sumf (fun x => if Nat.eqb x i then p i w * G else 0) c).
      - apply sumf_ext. intros x _. rewrite sumf_map. cbn [nth combine prodf fst snd]. destruct (Nat.eqb_spec x i) as [->|Nx]; [apply sumf_scal|apply sumf_0].
      - generalize (p i w * G). intros g. clear -ND Hi. induction ND as [|x l Hx ND IH]; [destruct Hi|]. cbn [sumf]. destruct (Nat.eqb_spec x i) as [->|Nx].
        + assert (Z : sumf (fun x => if Nat.eqb x i then g else 0) l = 0); [|rewrite Z; lra].
          transitivity (sumf (fun _ : nat => 0) l); [|apply sumf_0]. apply sumf_ext. intros y Hy. destruct (Nat.eqb_spec y i) as [->|]; [contradiction|reflexivity].
        + destruct Hi as [->|Hi]; [congruence|]. rewrite IH by exact Hi. lra. }
    rewrite E. ring.
  - rewrite (sumf_ext _ (fun x => p x w * sumf (fun a => if Nat.eqb (nth j a 0%nat) i then prodf (fun q => p (fst q) (snd q)) (combine a t) else 0) (seqs c (length t)))).
    + rewrite sumf_scal_r, Rmult_assoc, IH by (cbn in Hj; lia). ring.
    + intros x _. rewrite sumf_map, <- sumf_scal. apply sumf_ext. intros a _. cbn [nth combine prodf fst snd]. destruct (Nat.eqb _ _); lra.
Qed.
Theorem posterior2_share : forall p al ns t j i, ns <> [] -> (forall k, (k < length t)%nat -> 0 < sumf (gen2 p al ns t k) (seq 0 (length ns))) -> (j < length t)%nat -> (i < length ns)%nat ->
  posterior2 p al ns t j i = gen2 p al ns t j i / sumf (gen2 p al ns t j) (seq 0 (length ns)).
Proof.
  intros p al ns t j i Hn Hp Hj Hi. unfold posterior2. rewrite total2_prod by exact Hn. unfold alignments.
  replace (S (pred (length ns))) with (length ns) by (destruct ns; [congruence|reflexivity]).
  assert (X : (j < length (seq 0 (length t)))%nat) by (now rewrite seq_length).
  pose proof (post_num_g 0%nat (fun i k => gen2 p al ns t k i) (seq 0 (length ns)) i (seq 0 (length t)) j (seq_NoDup _ _) ltac:(apply in_seq; lia) X) as E.
  rewrite seq_nth in E by exact Hj. rewrite seq_length in E. cbn [plus] in E.
  assert (P1 : 0 < sumf (gen2 p al ns t j) (seq 0 (length ns))) by (apply Hp, Hj).
  assert (P2 : 0 < prodf (fun k => sumf (gen2 p al ns t k) (seq 0 (length ns))) (seq 0 (length t))) by (apply prodf_pos; intros k Hk; apply Hp; apply in_seq in Hk; lia).
  rewrite (sumf_ext (joint2 p al ns t) (fun a => prodf (fun q => gen2 p al ns t (snd q) (fst q)) (combine a (seq 0 (length t))))).
  2:{ intros a Ha. apply filter_In in Ha as [Ha _]. apply joint2_combine. apply seqs_in in Ha. apply Ha. }
  set (F := sumf _ (filter _ _)) in *. change (sumf (fun x => gen2 p al ns t j x) (seq 0 (length ns))) with (sumf (gen2 p al ns t j) (seq 0 (length ns))) in E.
  change (prodf (fun w => sumf (fun x => gen2 p al ns t w x) (seq 0 (length ns))) (seq 0 (length t))) with (prodf (fun k => sumf (gen2 p al ns t k) (seq 0 (length ns))) (seq 0 (length t))) in E.
  apply Rmult_eq_reg_r with (sumf (gen2 p al ns t j) (seq 0 (length ns))); [|lra].
  replace (F / prodf (fun k => sumf (gen2 p al ns t k) (seq 0 (length ns))) (seq 0 (length t)) * sumf (gen2 p al ns t j) (seq 0 (length ns)))
    with (F * sumf (gen2 p al ns t j) (seq 0 (length ns)) / prodf (fun k => sumf (gen2 p al ns t k) (seq 0 (length ns))) (seq 0 (length t))) by (field; lra).
  rewrite E. field. split; lra.
Qed.
Section Q.
Variable L : ltab.
Variable A : atab.
Variable slm : nat -> nat -> R.
Definition palig (k : apos) (i : nat) : R := prob aposdec Nat.eq_dec A k i.
Lemma gen2_pos : forall ns t k i, 0 <= gen2 (pts2 L) palig ns t k i.
Proof. intros. apply Rmult_le_pos; apply prob_nonneg. Qed.
Lemma gen2_code : forall ns t j i, pts2 L (nth i ns 0%N) (nth j t 0%N) * aProb A (j + 1) (pred (length ns)) (length t) i = gen2 (pts2 L) palig ns t j i.
Proof. intros. unfold gen2, aProb, palig. rewrite Nat.add_1_r. reflexivity. Qed.
Theorem calcLgProb2_ok : forall s t, calcLgProb2 L A slm s t = lgln (exp (slm (length s) (length t)) * total2 (pts2 L) palig (with_null s) t).
Proof.
  intros s t. unfold calcLgProb2. change (pred (length (addNullWord s))) with (length s). change (addNullWord s) with (with_null s).
  assert (G : forall l b, fold_left (fun a j => lgadd a (lgln (fold_left (fun sm i => sm + pts2 L (nth i (with_null s) 0%N) (nth j t 0%N) * aProb A (j + 1) (length s) (length t) i) (seq 0 (length (with_null s))) 0))) l b
    = fold_left (fun a k => lgadd a (lgln (sumf (gen2 (pts2 L) palig (with_null s) t k) (seq 0 (length (with_null s)))))) l b).
  { induction l as [|j l IH]; intros b; [reflexivity|]. cbn [fold_left]. rewrite IH, fold_sum, Rplus_0_l. f_equal. f_equal. f_equal. apply sumf_ext. intros i _. apply (gen2_code (with_null s) t j i). }
  rewrite G. rewrite (fin_lgln 0), exp_0. rewrite (fold_lg (fun k => sumf (gen2 (pts2 L) palig (with_null s) t k) (seq 0 (length (with_null s))))); [|lra|intros; apply sumf_nonneg; intros; apply gen2_pos].
  rewrite fin_lgln, lgadd_lgln; [|left; apply exp_pos|rewrite Rmult_1_l; apply prodf_nonneg; intros; apply sumf_nonneg; intros; apply gen2_pos].
  rewrite total2_prod by discriminate. f_equal. ring.
Qed.
(** ---- best alignment *)
Section INNER.
Variable P : nat -> R.
Hypothesis Pp : forall i, 0 <= P i.
Definition istep (acc : lg * nat) (i : nat) : lg * nat := if lgleb (fst acc) (lgln (P i)) then (lgln (P i), i) else acc.
Lemma inner_loop : forall l bi0 seen acc,
  (forall i, In i seen -> match fst acc with Fin m => P i <= exp m | _ => False end) ->
  (match fst acc with Fin m => (m = - FLT_MAX /\ snd acc = bi0 /\ (forall i, In i seen -> P i < exp m)) \/ (exp m = P (snd acc) /\ - FLT_MAX <= m /\ In (snd acc) seen) | _ => False end) ->
  let r := fold_left istep l acc in
  exists m, fst r = Fin m /\ (forall i, In i (seen ++ l) -> P i <= exp m) /\
    ((m = - FLT_MAX /\ snd r = bi0 /\ forall i, In i (seen ++ l) -> P i < exp m) \/ (exp m = P (snd r) /\ - FLT_MAX <= m /\ In (snd r) (seen ++ l))).
Proof.
  induction l as [|i l IH]; intros bi0 seen [m0 b] H1 H2; cbn [fold_left].
  - cbn in *. rewrite app_nil_r. destruct m0 as [| |m]; try tauto. exists m. auto.
  - replace (seen ++ i :: l) with ((seen ++ [i]) ++ l) by (rewrite <- app_assoc; reflexivity).
    cbn [fst snd] in *. destruct m0 as [| |m]; try tauto.
    assert (EB : istep (Fin m, b) i = if lgleb (Fin m) (lgln (P i)) then (lgln (P i), i) else (Fin m, b)) by reflexivity.
    cbv zeta. unfold lgln in EB. destruct (Rlt_dec 0 (P i)) as [Q|Q].
    + cbn [lgleb] in EB. assert (Ee : exp (ln (P i)) = P i) by (apply exp_ln, Q). destruct (Rle_dec m (ln (P i))) as [Le|Le]; rewrite EB.
      * assert (Lx : exp m <= P i). { rewrite <- Ee. destruct Le as [Le|Le]; [left; now apply exp_increasing|right; now rewrite <- Le]. }
        apply IH; cbn [fst snd].
        -- intros k Hk. rewrite in_app_iff in Hk. rewrite Ee. destruct Hk as [Hk|[<-|[]]]; [|lra]. specialize (H1 k Hk). lra.
        -- right. split; [exact Ee|]. split; [|rewrite in_app_iff; cbn; auto]. destruct H2 as [(X & _)|(_ & X & _)]; lra.
      * assert (Lt : P i < exp m). { rewrite <- Ee. apply exp_increasing. lra. }
        apply IH; cbn [fst snd].
        -- intros k Hk. rewrite in_app_iff in Hk. destruct Hk as [Hk|[<-|[]]]; [now apply H1|lra].
        -- destruct H2 as [(X & B & C)|(X & B & C)]; [left|right].
           ++ split; [exact X|]. split; [exact B|]. intros k Hk. rewrite in_app_iff in Hk. destruct Hk as [Hk|[<-|[]]]; [now apply C|lra].
           ++ split; [exact X|]. split; [exact B|]. rewrite in_app_iff. auto.
    + assert (Z : P i = 0) by (pose proof (Pp i); lra). pose proof (exp_pos m) as Pm.
      assert (Em : lgleb (Fin m) (if Rlt_dec (P i) 0 then NaN else LZ) = false) by (destruct (Rlt_dec (P i) 0); reflexivity).
      rewrite Em in EB. rewrite EB. apply IH; cbn [fst snd].
      * intros k Hk. rewrite in_app_iff in Hk. destruct Hk as [Hk|[<-|[]]]; [now apply H1|lra].
      * destruct H2 as [(X & B & C)|(X & B & C)]; [left|right].
        -- split; [exact X|]. split; [exact B|]. intros k Hk. rewrite in_app_iff in Hk. destruct Hk as [Hk|[<-|[]]]; [now apply C|lra].
        -- split; [exact X|]. split; [exact B|]. rewrite in_app_iff. auto.
Qed.
End INNER.
Lemma best_inner2_ok : forall ns t j, exists m bi, best_inner2 L A ns (length t) j (nth j t 0%N) = (Fin m, bi) /\
  ((m = - FLT_MAX /\ bi = 0%nat /\ forall i, (i < length ns)%nat -> gen2 (pts2 L) palig ns t j i < exp (- FLT_MAX)) \/
   (exp m = gen2 (pts2 L) palig ns t j bi /\ (bi < length ns)%nat /\ forall i, (i < length ns)%nat -> gen2 (pts2 L) palig ns t j i <= gen2 (pts2 L) palig ns t j bi)).
Proof.
  intros ns t j. set (P := gen2 (pts2 L) palig ns t j). assert (Pp : forall i, 0 <= P i) by (intros; apply gen2_pos).
  destruct (inner_loop P Pp (seq 0 (length ns)) 0%nat [] (Fin (- FLT_MAX), 0%nat)) as (m & E1 & E2 & E3).
  - cbn. tauto.
  - cbn. left. split; [reflexivity|]. split; [reflexivity|tauto].
  - cbn [app] in *. exists m, (snd (fold_left (istep P) (seq 0 (length ns)) (Fin (- FLT_MAX), 0%nat))). split.
    + unfold best_inner2. assert (G : forall l acc, fold_left (fun acc i => let lp := lgadd (lgln (pts2 L (nth i ns 0%N) (nth j t 0%N))) (lgln (aProb A (j + 1) (pred (length ns)) (length t) i)) in if lgleb (fst acc) lp then (lp, i) else acc) l acc = fold_left (istep P) l acc).
      { induction l as [|i l IH]; intros acc; [reflexivity|]. cbn [fold_left]. rewrite IH. f_equal. cbv zeta. rewrite lgadd_lgln by apply prob_nonneg. rewrite gen2_code. reflexivity. }
      rewrite G. rewrite <- E1. apply surjective_pairing.
    + destruct E3 as [(X & B & C)|(X & _ & C)]; [left|right].
      * split; [exact X|]. split; [exact B|]. intros i Hi. rewrite <- X. apply C, in_seq. lia.
      * apply in_seq in C. split; [exact X|]. split; [lia|]. intros i Hi. fold (P i). rewrite <- X. apply E2, in_seq. lia.
Qed.
(** every target position can be generated with positive (double) probability *)
Definition generable (ns t : list N) : Prop := forall k, (k < length t)%nat -> exists i, (i < length ns)%nat /\ exp (- FLT_MAX) <= gen2 (pts2 L) palig ns t k i.
Definition word_step (ns t : list N) (acc : lg * list nat) (j : nat) : lg * list nat :=
  let '(lp, al) := acc in let '(m, bi) := best_inner2 L A ns (length t) j (nth j t 0%N) in (lgadd lp m, al ++ [bi]).
Lemma words_loop : forall ns t, generable ns t -> forall m b p al, (b + m <= length t)%nat -> 0 < p ->
  exists a, fold_left (word_step ns t) (seq b m) (Fin (ln p), al) = (Fin (ln (p * prodf (fun k => gen2 (pts2 L) palig ns t k (nth (k - b) a 0%nat)) (seq b m))), al ++ a) /\
    length a = m /\ Forall (fun i => In i (seq 0 (length ns))) a /\ 0 < prodf (fun k => gen2 (pts2 L) palig ns t k (nth (k - b) a 0%nat)) (seq b m) /\
    forall k i, (b <= k < b + m)%nat -> (i < length ns)%nat -> gen2 (pts2 L) palig ns t k i <= gen2 (pts2 L) palig ns t k (nth (k - b) a 0%nat).
Proof.
  intros ns t Hg. induction m as [|m IH]; intros b p al Hb Hp.
  - exists []. cbn [seq fold_left prodf]. rewrite app_nil_r, Rmult_1_r. split; [reflexivity|]. split; [reflexivity|]. split; [constructor|]. split; [lra|]. intros; lia.
  - cbn [seq fold_left]. destruct (best_inner2_ok ns t b) as (v & c & E & H). unfold word_step at 2. rewrite E. cbn [lgadd].
    assert (Hc : exp v = gen2 (pts2 L) palig ns t b c /\ (c < length ns)%nat /\ forall i, (i < length ns)%nat -> gen2 (pts2 L) palig ns t b i <= gen2 (pts2 L) palig ns t b c).
    { destruct H as [(_ & _ & C)|H]; [|exact H]. exfalso. destruct (Hg b ltac:(lia)) as (i & Hi & Hx). specialize (C i Hi). lra. }
    destruct Hc as (Ev & Lc & Mc). pose proof (exp_pos v) as Pv.
    assert (Es : ln p + v = ln (p * gen2 (pts2 L) palig ns t b c)) by (rewrite <- Ev, ln_mult, ln_exp by lra; reflexivity). rewrite Es.
    destruct (IH (S b) (p * gen2 (pts2 L) palig ns t b c) (al ++ [c])) as (a & F & La & Fa & Pa & Ma); [lia|apply Rmult_lt_0_compat; [exact Hp|lra]|].
    assert (Q : prodf (fun k => gen2 (pts2 L) palig ns t k (nth (k - b) (c :: a) 0%nat)) (b :: seq (S b) m) = gen2 (pts2 L) palig ns t b c * prodf (fun k => gen2 (pts2 L) palig ns t k (nth (k - S b) a 0%nat)) (seq (S b) m)).
    { cbn [prodf]. rewrite Nat.sub_diag. cbn [nth]. f_equal. apply prodf_ext. intros k Hk. apply in_seq in Hk. replace (k - b)%nat with (S (k - S b)) by lia. reflexivity. }
    exists (c :: a). rewrite F, Q. split; [rewrite <- app_assoc, Rmult_assoc; reflexivity|]. split; [cbn; lia|]. split; [constructor; [apply in_seq; lia|exact Fa]|].
    split; [apply Rmult_lt_0_compat; [lra|exact Pa]|]. intros k i Hk Hi. destruct (Nat.eq_dec k b) as [->|Nk].
    + rewrite Nat.sub_diag. cbn [nth]. apply Mc, Hi.
    + replace (k - b)%nat with (S (k - S b)) by lia. cbn [nth]. apply Ma; [lia|exact Hi].
Qed.
Theorem best2_ok : forall s t, generable (with_null s) t ->
  exists v M a, obtainBestAlignment2 L A slm s t = Some (Fin v, M) /\ In a (alignments (length s) (length t)) /\
    same_dims M (w_init (length s) (length t)) /\ (forall i j, link M i j <-> nth_error a j = Some (S i)) /\
    v = slm (length s) (length t) + ln (joint2 (pts2 L) palig (with_null s) t a) /\ 0 < joint2 (pts2 L) palig (with_null s) t a /\
    (forall a', In a' (alignments (length s) (length t)) -> joint2 (pts2 L) palig (with_null s) t a' <= joint2 (pts2 L) palig (with_null s) t a).
Proof.
  intros s t Hg. unfold obtainBestAlignment2, lexAligM2LpForBestAlig.
  destruct (words_loop (with_null s) t Hg (length t) 0%nat 1 []) as (a & F & La & Fa & Pa & Ma); [lia|lra|]. rewrite ln_1, Rmult_1_l in F. cbn [app] in F.
  change (addNullWord s) with (with_null s). fold (word_step (with_null s) t). rewrite F.
  assert (J : prodf (fun k => gen2 (pts2 L) palig (with_null s) t k (nth (k - 0) a 0%nat)) (seq 0 (length t)) = joint2 (pts2 L) palig (with_null s) t a) by (apply prodf_ext; intros k _; now rewrite Nat.sub_0_r).
  rewrite J in *.
  destruct (putAligVec_spec (w_init (length s) (length t)) a) as (M & E & Dm & K).
  - exact La.
  - intros i Hi. rewrite Forall_forall in Fa. specialize (Fa i Hi). apply in_seq in Fa. cbn in *. lia.
  - rewrite E. cbn [lgadd]. eexists _, M, a. split; [reflexivity|]. split; [apply seqs_in; split; [exact La|exact Fa]|]. split; [exact Dm|]. split.
    + intros i j. rewrite K. split; [intros [X|X]; [|exact X]|auto]. exfalso. destruct X as [_ X]. cbn in X. now apply X.
    + split; [reflexivity|]. split; [exact Pa|]. intros a' Ha'. apply seqs_in in Ha' as [L' F']. unfold joint2. apply prodf_le. intros k Hk. apply in_seq in Hk. split; [apply gen2_pos|].
      specialize (Ma k (nth k a' 0%nat) ltac:(lia)). rewrite Nat.sub_0_r in Ma. apply Ma. rewrite Forall_forall in F'. assert (X : In (nth k a' 0%nat) a') by (apply nth_In; lia). apply F' in X. apply in_seq in X. cbn [with_null length]. lia.
Qed.
(** a target position that nothing generates is left unaligned *)
Theorem ungenerable : forall ns t k, (k < length t)%nat -> (forall i, (i < length ns)%nat -> gen2 (pts2 L) palig ns t k i = 0) -> best_inner2 L A ns (length t) k (nth k t 0%N) = (Fin (- FLT_MAX), 0%nat).
Proof.
  intros ns t k Hk Hz. destruct (best_inner2_ok ns t k) as (m & b & E & [(X & Y & _)|(X & Y & _)]); [rewrite E, X, Y; reflexivity|]. exfalso. rewrite (Hz b Y) in X. pose proof (exp_pos m). lra.
Qed.
(** ---- score of a given alignment *)
Lemma incr2_ok : forall s t al, length al = length t -> incrIBM2LgProb L A (addNullWord s) t al = lgln (joint2 (pts2 L) palig (with_null s) t al).
Proof.
  intros s t al Le. unfold incrIBM2LgProb. change (addNullWord s) with (with_null s). rewrite Le.
  assert (G : forall l b, 0 <= b -> fold_left (fun a j => lgadd (lgadd a (lgln (pts2 L (nth (nth j al 0%nat) (with_null s) 0%N) (nth j t 0%N)))) (lgln (aProb A (j + 1) (pred (length (with_null s))) (length t) (nth j al 0%nat)))) l (lgln b)
     = fold_left (fun a k => lgadd a (lgln (gen2 (pts2 L) palig (with_null s) t k (nth k al 0%nat)))) l (lgln b)).
  { induction l as [|j l IH]; intros b Hb; [reflexivity|]. cbn [fold_left]. rewrite !lgadd_lgln; try apply prob_nonneg; try apply gen2_pos; try exact Hb.
    - rewrite IH by (apply Rmult_le_pos; [apply Rmult_le_pos; [exact Hb|apply prob_nonneg]|apply prob_nonneg]). rewrite Rmult_assoc, gen2_code. reflexivity.
    - apply Rmult_le_pos; [exact Hb|apply prob_nonneg]. }
  rewrite (fin_lgln 0), exp_0, G by lra. rewrite (fold_lg (fun k => gen2 (pts2 L) palig (with_null s) t k (nth k al 0%nat))); [|lra|intros; apply gen2_pos]. unfold joint2. f_equal. lra.
Qed.
Theorem score2_put : forall s t al, length al = length t -> (forall a, In a al -> a <= length s)%nat ->
  exists M, putAligVec (w_init (length s) (length t)) al = Some M /\ calcLgProbForAlig2 L A s t M = lgln (joint2 (pts2 L) palig (with_null s) t (map pred al)).
Proof.
  intros s t al Le X. destruct (put_get (length s) (length t) al Le X) as (M & E & G). exists M. split; [exact E|]. unfold calcLgProbForAlig2. rewrite G, map_length, Le, Nat.eqb_refl. apply incr2_ok. now rewrite map_length.
Qed.
(** ---- stepwise computation *)
Definition chunk_step (slen : nat) (t : list N) (st : nat * list R) (c : list N) : nat * list R := ((fst st + length c)%nat, partialProbWithoutLen2 L A (fst st) slen c t (snd st)).
Lemma nth_map_seq : forall (f : nat -> R) m j, (j < m)%nat -> nth j (map f (seq 0 m)) 0 = f j.
Proof. intros f m j H. rewrite (nth_indep _ 0 (f 0%nat)) by (rewrite map_length, seq_length; exact H). rewrite map_nth, seq_nth by exact H. reflexivity. Qed.
Lemma partial2_step : forall s t pre c post, s = pre ++ c ++ post ->
  let g := gen2 (pts2 L) palig (with_null s) t in
  partialProbWithoutLen2 L A (length pre) (length s) c t (map (fun j => sumf (g j) (seq 0 (S (length pre)))) (seq 0 (length t)))
  = map (fun j => sumf (g j) (seq 0 (S (length pre + length c)))) (seq 0 (length t)).
Proof.
  intros s t pre c post Es g. unfold partialProbWithoutLen2.
  assert (G : forall m b, (b + m <= length c)%nat -> fold_left (fun pp i => map (fun j => nth j pp 0 + pts2 L (nth i c 0%N) (nth j t 0%N) * aProb A (j + 1) (length s) (length t) (length pre + i + 1)) (seq 0 (length t))) (seq b m)
     (map (fun j => sumf (g j) (seq 0 (S (length pre + b)))) (seq 0 (length t))) = map (fun j => sumf (g j) (seq 0 (S (length pre + (b + m))))) (seq 0 (length t))).
  { induction m as [|m IH]; intros b Hb; cbn [seq fold_left]; [rewrite Nat.add_0_r; reflexivity|]. rewrite (map_ext_in _ (fun j => sumf (g j) (seq 0 (S (length pre + S b))))).
    - rewrite IH by lia. apply map_ext. intros j. replace (length pre + (S b + m))%nat with (length pre + (b + S m))%nat by lia. reflexivity.
    - intros j Hj. apply in_seq in Hj. rewrite (nth_map_seq (fun j => sumf (g j) (seq 0 (S (length pre + b))))) by lia.
      replace (S (length pre + S b)) with (S (length pre + b) + 1)%nat by lia. rewrite seq_app, sumf_app. f_equal. rewrite Nat.add_0_l. change (seq (S (length pre + b)) 1) with [S (length pre + b)]. cbn [sumf]. rewrite Rplus_0_r.
      unfold g. rewrite <- gen2_code. change (pred (length (with_null s))) with (length s). rewrite (Nat.add_1_r (length pre + b)). f_equal. f_equal. cbn [with_null nth].
      rewrite Es. rewrite app_nth2 by lia. rewrite app_nth1 by lia. f_equal. lia. }
  specialize (G (length c) 0%nat ltac:(lia)). rewrite Nat.add_0_r in G. exact G.
Qed.
Theorem stepwise2 : forall s t chunks, concat chunks = s ->
  lpFromPpInfo (snd (fold_left (chunk_step (length s) t) chunks (0%nat, initPpInfo2 L A (length s) t))) = lgln (total2 (pts2 L) palig (with_null s) t).
Proof.
  intros s t chunks Hc. set (g := gen2 (pts2 L) palig (with_null s) t).
  assert (G : forall cs pre, s = pre ++ concat cs -> fold_left (chunk_step (length s) t) cs (length pre, map (fun j => sumf (g j) (seq 0 (S (length pre)))) (seq 0 (length t)))
     = (length s, map (fun j => sumf (g j) (seq 0 (S (length s)))) (seq 0 (length t)))).
  { induction cs as [|c cs IH]; intros pre Hs; cbn [fold_left]; [cbn in Hs; rewrite app_nil_r in Hs; subst pre; reflexivity|].
    unfold chunk_step at 2. cbn [fst snd]. cbn [concat] in Hs. unfold g. rewrite (partial2_step s t pre c (concat cs) Hs). fold g. rewrite <- app_length. apply IH. rewrite <- app_assoc. exact Hs. }
  assert (I : initPpInfo2 L A (length s) t = map (fun j => sumf (g j) (seq 0 1)) (seq 0 (length t))).
  { unfold initPpInfo2. apply map_ext. intros j. cbn [seq sumf]. rewrite Rplus_0_l, Rplus_0_r. unfold g. rewrite <- gen2_code. reflexivity. }
  rewrite I. pose proof (G chunks [] (eq_sym Hc)) as X. cbn [length] in X. rewrite X. cbn [snd]. unfold lpFromPpInfo. rewrite (fin_lgln 0), exp_0. rewrite (fold_lg (fun x => x)); [|lra|intros x Hx; apply in_map_iff in Hx as (j & <- & _); apply sumf_nonneg; intros; apply gen2_pos].
  rewrite prodf_map, total2_prod by discriminate. f_equal. rewrite Rmult_1_l. reflexivity.
Qed.
End Q.
