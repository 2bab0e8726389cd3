(** Properties of the decoder's estimates (C88) and of the lists of translation options (C89). *)
From Coq Require Import ZArith Arith List Bool Lia Sorted Permutation.
From Verif Require Import DecSpec DecModel DecGapProofs DecHypProofs FeatSpec HeurSpec HeurModel HeurProofs HeurGapProofs NbestProofs.
Import ListNotations.
Open Scope nat_scope.
Section P.
Variables (J A : nat) (nbest : nat -> nat -> list (list nat)) (sc : nat -> nat -> list nat -> Z) (unk NEG : Z).
Notation pc := (segment_value A nbest sc unk NEG).
(** ** C88: the estimate of a hypothesis *)
Theorem C88_table_is_best_segmentation : exists T, initHeuristicLocalt J A nbest sc unk NEG = Some T /\
  forall l r, 1 <= l <= r -> r <= J -> exists v, get2 T (r - 1) (J - l) = Some v /\ best_tiling pc l r v.
Proof. apply table_ok. Qed.
Theorem C88_estimate_is_best_completion : exists T, initHeuristicLocalt J A nbest sc unk NEG = Some T /\
  forall ps, well_segmented J (map fst ps) -> exists v, getLocalTmHeurScore J T (hyp_of ps) = Some v /\
    (exists more, completes J (map fst ps) more /\ total pc more = v) /\ forall more, completes J (map fst ps) more -> (total pc more <= v)%Z.
Proof.
  destruct C88_table_is_best_segmentation as (T & E & B). exists T. split; [exact E|]. intros ps W.
  set (b := fun l r => match get2 T (r - 1) (J - l) with Some v => v | None => 0%Z end).
  assert (BT : forall l r, 1 <= l <= r -> r <= J -> best_tiling pc l r (b l r)). { intros l r L R. destruct (B l r L R) as (v & G & V). unfold b. now rewrite G. }
  exists (gsum b (extract_gaps J (getKey (map fst ps)))). split; [|apply (gsum_best J pc b BT _ W)].
  unfold getLocalTmHeurScore. cbn [hyp_of segs]. destruct (gaps_facts J (map fst ps)) as (_ & MG).
  assert (RG : forall g, In g (extract_gaps J (getKey (map fst ps))) -> 1 <= fst g <= snd g /\ snd g <= J) by (intros g G; apply MG in G; destruct G as (A1 & B0 & _); auto).
  revert RG. generalize (extract_gaps J (getKey (map fst ps))) as gs. intros gs RG.
  assert (X : forall acc, gap_sum J T gs acc = Some (acc + gsum b gs)%Z); [|now rewrite X].
  induction gs as [|g gs IH]; intro acc; cbn [gap_sum]; [unfold gsum; cbn; f_equal; lia|]. pose proof (RG g (or_introl eq_refl)). rewrite !usub_ok by lia. destruct (B (fst g) (snd g)) as (v & G & _); [lia|lia|]. rewrite G.
  rewrite IH by (intros g' G'; apply RG; now right). unfold gsum. cbn [map fold_right]. unfold b at 2. rewrite G. f_equal. lia.
Qed.
(** no completion with the given options, however its segments are ordered, is worth more than the estimate *)
Theorem C88_never_underestimates : forall T ps v more, initHeuristicLocalt J A nbest sc unk NEG = Some T -> well_segmented J (map fst ps) -> getLocalTmHeurScore J T (hyp_of ps) = Some v ->
  completes J (map fst ps) (map fst more) ->
  (forall s t, In (s, t) more -> (In t (nbest (fst s) (snd s)) /\ snd s - fst s + 1 <= A) \/ (fst s = snd s /\ (nbest (fst s) (snd s) = [] \/ A = 0) /\ (sc (fst s) (snd s) t <= unk)%Z)) ->
  (fold_right Z.add 0%Z (map (fun p => sc (fst (fst p)) (snd (fst p)) (snd p)) more) <= v)%Z.
Proof.
  intros T ps v more E W H C O. destruct C88_estimate_is_best_completion as (T' & E' & X). rewrite E in E'. inversion E'; subst T'. destruct (X ps W) as (v' & H' & _ & U). rewrite H in H'. inversion H'; subst v'. specialize (U _ C).
  assert (L : (fold_right Z.add 0%Z (map (fun p => sc (fst (fst p)) (snd (fst p)) (snd p)) more) <= total pc (map fst more))%Z); [|lia]. clear -O. unfold total. induction more as [|[s t] more IH]; cbn [map fold_right fst snd]; [lia|].
  assert (Y : (sc (fst s) (snd s) t <= pc (fst s) (snd s))%Z).
  { unfold segment_value. destruct (O s t (or_introl eq_refl)) as [(I & L)|(Q & N & L)].
    - destruct (Nat.ltb_spec A (snd s - fst s + 1)); [lia|]. destruct (nbest (fst s) (snd s)) as [|t0 ts] eqn:NB; [destruct I|]. rewrite <- NB in *. clear NB. induction (nbest (fst s) (snd s)) as [|x l IHl]; [destruct I|]. cbn [map fold_right]. destruct I as [->|I]; [lia|specialize (IHl I); lia].
    - rewrite Q, Nat.eqb_refl. rewrite Q in N, L. destruct N as [N| ->]; [rewrite N; destruct (A <? _); exact L|]. destruct (Nat.ltb_spec 0 (snd s - snd s + 1)); [exact L|lia]. }
  specialize (IH (fun s t I => O s t (or_intror I))). lia.
Qed.
(** segments without translation are never used when -FLT_MAX is below every real score *)
Definition translatable (s : seg) : Prop := fst s = snd s \/ (snd s - fst s + 1 <= A /\ nbest (fst s) (snd s) <> []).
Theorem C88_only_real_segments : forall l r v, (forall i j t, (sc i j t <= 0)%Z) -> (unk <= 0)%Z -> (NEG <= 0)%Z -> 1 <= l <= r ->
  (NEG < total pc (map (fun j => (j, j)) (seq l (S r - l))))%Z -> best_tiling pc l r v ->
  exists ss, tiles l r ss /\ total pc ss = v /\ Forall translatable ss.
Proof.
  intros l r v S0 U0 N0 L LT ((ss & T & E) & M). exists ss. split; [exact T|]. split; [exact E|].
  assert (P0 : forall i j, (pc i j <= 0)%Z). { intros i j. unfold segment_value. destruct (if A <? j - i + 1 then [] else nbest i j) as [|t ts]; [destruct (i =? j); auto|]. generalize (t :: ts) as l0. induction l0 as [|x l0 IH]; cbn [map fold_right]; [lia|]. specialize (S0 i j x). lia. }
  assert (SG : forall k l, tiles l (l + k) (map (fun j => (j, j)) (seq l (S k)))). { induction k as [|k IH]; intro l0; [rewrite Nat.add_0_r; constructor; lia|]. cbn [seq map]. constructor; [lia|]. specialize (IH (l0 + 1)). replace (l0 + 1 + k) with (l0 + S k) in IH by lia. rewrite Nat.add_1_r in *. exact IH. }
  specialize (SG (r - l) l). replace (l + (r - l)) with r in SG by lia. replace (S (r - l)) with (S r - l) in SG by lia. apply M in SG.
  apply Forall_forall. intros s S. unfold translatable. destruct (Nat.eq_dec (fst s) (snd s)) as [|NE]; [now left|]. right.
  assert (V : (total pc ss <= pc (fst s) (snd s))%Z). { apply total_in; auto. }
  unfold segment_value in V at 2. destruct (Nat.ltb_spec A (snd s - fst s + 1)) as [G|G].
  - destruct (Nat.eqb_spec (fst s) (snd s)); [lia|]. lia.
  - split; [lia|]. intro Q. rewrite Q in V. destruct (Nat.eqb_spec (fst s) (snd s)); [lia|]. lia.
Qed.
End P.
(** the estimate of the reorderings is too low: it counts a jump of 1 where the score counts none, so that a completion can be better than estimated *)
Theorem C88_distortion_estimate_refuted : exists (src : list nat) jump more, (forall a b, a <= b -> (jump b <= jump a)%Z) /\ completes (length src) [] (map fst more) /\
  (getDistortionHeurScore (length src) jump (hyp_of []) < segments_score src (FJump jump) [] more)%Z.
Proof.
  exists [1], (fun k => (- Z.of_nat k)%Z), [((1, 1), [1])]. split; [intros; lia|]. split; [|vm_compute; reflexivity].
  split; [repeat constructor|]. intros j Jr. exists (1, 1). cbn in *. split; [now left|unfold in_seg; cbn; lia].
Qed.
(** what the estimate is: the gaps visited from left to right, each jump measured from the last source word covered or from the end of the previous gap *)
Theorem C88_distortion_estimate : forall n jump ps, exists gaps, StronglySorted (fun g h => snd g + 1 < fst h) gaps /\ (forall g, In g gaps <-> is_gap n (covered (map fst ps)) g) /\
  getDistortionHeurScore n jump (hyp_of ps) = fold_right Z.add 0%Z (map (fun p => jump (dist_abs (fst (fst p)) (snd p))) (combine gaps (snd (last (map fst ps) (0, 0)) :: map snd gaps))).
Proof.
  intros n jump ps. destruct (gaps_facts n (map fst ps)) as (S1 & M). exists (extract_gaps n (getKey (map fst ps))). split; [exact S1|]. split; [exact M|].
  unfold getDistortionHeurScore, calcHeurScore. cbn [hyp_of segs]. assert (L : getLastSrcPosCovered (hyp_of ps) = snd (last (map fst ps) (0, 0))).
  { unfold getLastSrcPosCovered. cbn [hyp_of segs]. destruct (map fst ps) as [|x l]; [reflexivity|]. f_equal. clear. revert x. induction l as [|y l IH]; intro x; [reflexivity|]. cbn [last] in *. destruct l; [reflexivity|]. rewrite IH. reflexivity. }
  rewrite L. generalize (snd (last (map fst ps) (0, 0))). generalize (extract_gaps n (getKey (map fst ps))).
  assert (F : forall l acc, fold_left (fun res k => (res + jump k)%Z) l acc = (acc + fold_right Z.add 0 (map jump l))%Z) by (induction l as [|x l IH]; intro acc; cbn [fold_left map fold_right]; [lia|]; rewrite IH; lia).
  intros gs j. rewrite F. clear F L. rewrite Z.add_0_l. f_equal. revert j. induction gs as [|g gs IH]; intro j; [reflexivity|]. cbn [min_jumps map combine]. rewrite IH. f_equal. f_equal. unfold dist_abs. cbn [fst snd]. destruct (Nat.ltb_spec (fst g) j); lia.
Qed.
(** ** C89: the options kept for a source phrase are the best ones *)
Theorem C89_best_options : forall sc N trans, 1 <= N -> exists t rest, getNbestTransForSrcPhrase sc (inl N) trans = Some t /\ length t = Nat.min N (length trans) /\
  Permutation (t ++ rest) (map (fun x => (sc x, x)) trans) /\ StronglySorted (fun p q => (fst q <= fst p)%Z) (t ++ rest) /\
  forall k, filter (fun p => (fst p =? k)%Z) (t ++ rest) = filter (fun p => (fst p =? k)%Z) (map (fun x => (sc x, x)) trans).
Proof.
  intros sc N trans N1. unfold getNbestTransForSrcPhrase. destruct (build_ok _ sc trans [] ltac:(constructor)) as (S & P & F). cbn [app] in *. set (nbt := fold_left _ trans []) in *.
  rewrite shrink_ok by lia. exists (firstn N nbt), (skipn N nbt). rewrite firstn_skipn. split; [reflexivity|]. split; [|auto]. rewrite firstn_length. apply Permutation_length in P. rewrite map_length in P. lia.
Qed.
Theorem C89_options_above_threshold : forall sc lg trans, (lg <= 0)%Z -> exists t rest, getNbestTransForSrcPhrase sc (inr lg) trans = Some t /\
  Permutation (t ++ rest) (map (fun x => (sc x, x)) trans) /\ StronglySorted (fun p q => (fst q <= fst p)%Z) t /\
  forall x, In x trans -> (In (sc x, x) t <-> forall y, In y trans -> (sc y + lg <= sc x)%Z).
Proof.
  intros sc lg trans L. unfold getNbestTransForSrcPhrase. destruct (build_ok _ sc trans [] ltac:(constructor)) as (S & P & F). cbn [app] in *. set (nbt := fold_left _ trans []) in *. unfold pruneGivenThreshold.
  assert (B : nbt = [] \/ exists p, In p nbt /\ (getScoreOfBestElem nbt + lg <= fst p)%Z) by (destruct nbt as [|p q]; [now left|right; exists p; split; [now left|cbn; lia]]).
  destruct (prune_ok _ (Datatypes.S (length nbt)) nbt (getScoreOfBestElem nbt + lg)%Z S ltac:(lia) B) as (k & rest & E & Q & K1 & K2). exists k, rest. split; [exact E|]. rewrite <- Q. split; [exact P|].
  assert (SK : StronglySorted (fun p q => (fst q <= fst p)%Z) k). { rewrite Q in S. clear -S. induction k as [|x k IH]; [constructor|]. cbn [app] in S. inversion S; subst. constructor; [auto|now apply Forall_app in H2]. }
  split; [exact SK|]. rewrite Forall_forall in K1, K2.
  assert (ME : forall y, In y trans -> (sc y <= getScoreOfBestElem nbt)%Z). { intros y Y. assert (I : In (sc y, y) nbt) by (eapply Permutation_in; [symmetry; exact P|apply in_map_iff; eauto]). destruct nbt as [|p q]; [destruct I|]. cbn. destruct I as [->|I]; [cbn; lia|]. inversion S; subst. rewrite Forall_forall in H2. apply (H2 _ I). }
  assert (AT : trans <> [] -> exists y, In y trans /\ sc y = getScoreOfBestElem nbt). { intro NE. destruct nbt as [|p q]; [destruct trans; [congruence|apply Permutation_length in P; discriminate P]|]. assert (I : In p (map (fun x => (sc x, x)) trans)) by (eapply Permutation_in; [exact P|now left]). apply in_map_iff in I. destruct I as (y & <- & Y). exists y. auto. }
  intros x X. split.
  - intros I y Y. specialize (K1 _ I). cbn in K1. specialize (ME y Y). lia.
  - intro G. destruct (AT ltac:(intros ->; destruct X)) as (y & Y & EY). specialize (G y Y). assert (I : In (sc x, x) nbt) by (eapply Permutation_in; [symmetry; exact P|apply in_map_iff; eauto]). rewrite Q in I. apply in_app_iff in I. destruct I as [I|I]; [auto|]. specialize (K2 _ I). cbn in K2. lia.
Qed.
Definition xnb (l r : nat) : list (list nat) := if (l =? 2) && (r =? 3) then [[7]; [8; 9]] else if (l =? 1) && (r =? 1) then [[5]] else [].
Definition xsc (l r : nat) (t : list nat) : Z := (- Z.of_nat (length t) - 1)%Z.
Example C88_nonvacuous : exists T, initHeuristicLocalt 3 2 xnb xsc (-5)%Z (-1000)%Z = Some T /\ getLocalTmHeurScore 3 T (hyp_of []) = Some (-4)%Z /\ getLocalTmHeurScore 3 T (hyp_of [((2, 2), [4])]) = Some (-7)%Z /\
  completes 3 [(2, 2)] [(3, 3); (1, 1)].
Proof.
  eexists. split; [vm_compute; reflexivity|]. split; [reflexivity|]. split; [reflexivity|]. split; [split; [repeat constructor|repeat constructor; intros j [X Y]; unfold in_seg in *; cbn in *; lia]|].
  intros j Jr. assert (j = 1 \/ j = 2 \/ j = 3) as [->|[->| ->]] by lia; [exists (1, 1)|exists (2, 2)|exists (3, 3)]; (split; [cbn; auto|unfold in_seg; cbn; lia]).
Qed.
Example C89_nonvacuous : getNbestTransForSrcPhrase (xsc 1 1) (inl 2) [[1; 2]; [3]; [4]] = Some [((-2)%Z, [3]); ((-2)%Z, [4])] /\
  getNbestTransForSrcPhrase (xsc 1 1) (inr (-1)%Z) [[1; 2]; [3]; [4; 5; 6]] = Some [((-2)%Z, [3]); ((-3)%Z, [1; 2])].
Proof. split; reflexivity. Qed.
Print Assumptions C88_table_is_best_segmentation.
Print Assumptions C88_estimate_is_best_completion.
Print Assumptions C88_never_underestimates.
Print Assumptions C88_only_real_segments.
Print Assumptions C88_distortion_estimate_refuted.
Print Assumptions C88_distortion_estimate.
Print Assumptions C89_best_options.
Print Assumptions C89_options_above_threshold.
