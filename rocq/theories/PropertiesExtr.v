(** C42, C43: extraction of phrase pairs from a word-aligned sentence pair.
    The extractors take the source sentence with the NULL word in front ([nul :: s]). *)
From Coq Require Import NArith Arith List Bool Lia.
From Verif Require Import AligSpec AligModel ExtrSpec ExtrModel ExtrBase ExtrProofs OchProofs ExtrOnce.
Import ListNotations.
(** the phrase pair p is the span pair q = (i1,i2,j1,j2) of the sentences: consistent with the alignment, within all limits *)
Definition extracted_from {W} (A : wam) (P : epars) (s t : list W) (q : nat * nat * nat * nat) (p : ppair W) : Prop :=
  let '(i1, i2, j1, j2) := q in
  consistent A i1 i2 j1 j2 /\ pp_s p = words s i1 i2 /\ pp_t p = words t j1 j2 /\
  (e_mono P = true -> monotone_at A i1 i2 j1 j2) /\
  (e_srclen P = true -> S i2 - i1 <= e_max P) /\
  (e_spur P = true -> S j2 - j1 <= e_max P) /\
  (e_spur P = false -> exists n, linked_words A j1 j2 n /\ n <= e_max P) /\
  links_inside A i1 i2 j1 j2 (pp_sum p) (pp_num p).
(** both directions about one list of spans: the output comes from different admissible spans, and every span that must be extracted is one of them *)
Theorem C42_spans : forall (W : Type) (A : wam) (P : epars) (nul : W) s t old,
  wI A = length s -> wJ A = length t -> s <> [] -> length s < MAX_SENTENCE_LENGTH -> length t < MAX_SENTENCE_LENGTH ->
  exists L, NoDup L /\ Forall2 (extracted_from A P s t) L (extractOld A (nul :: s) t P old) /\
    forall i1 i2 j1 j2, must_extract A P (length s) (length t) i1 i2 j1 j2 -> In (i1, i2, j1, j2) L.
Proof.
  intros W A P nul s t old DI DJ Ne L1 L2. unfold extractOld. unfold tlen at 1, nslen at 1. cbn [length].
  destruct (Nat.leb_spec MAX_SENTENCE_LENGTH (length t)); [lia|]. destruct (Nat.leb_spec MAX_SENTENCE_LENGTH (S (length s) - 1)); [lia|]. cbn [orb].
  assert (DI' : wI A = nslen (nul :: s) - 1) by (unfold nslen; cbn [length]; lia). assert (DJ' : wJ A = tlen t) by exact DJ.
  assert (NE : 2 <= nslen (nul :: s)) by (unfold nslen; destruct s; [contradiction|cbn; lia]).
  destruct (extract_exact A (nul :: s) t P DI' DJ' NE) as [L [N [F X]]]. exists L. split; [exact N|]. split.
  - clear N X. induction F as [|q p L' l' Hq F IH]; [constructor|]. constructor; [|apply IH].
    clear IH. destruct q as [[[i1 i2] j1] j2]. unfold sound, fits in Hq. unfold extracted_from. cbn [tl] in Hq. tauto.
  - intros i1 i2 j1 j2 (C & S1 & S2 & Mo & Sl & Sp & Ns & Fu). pose proof C as [B1 [B2 [B3 [B4 _]]]].
    assert (Hr : inr_cell t (tlen t - j1) (j2 - 1)) by (unfold inr_cell, tlen; lia).
    destruct (cell_complete A (nul :: s) t P DI' DJ' NE i1 i2 j1 j2 C S1 S2) as [a [Ha [Ok [La Ta]]]].
    + unfold limit. destruct (e_spur P) eqn:E; apply Nat.leb_le.
      * specialize (Sp eq_refl). unfold lenInCell, tlen. lia.
      * destruct (Ns eq_refl) as [n [Ln Hn]]. pose proof (lenNonSpur_words A (nul :: s) t DI' DJ' NE _ _ Hr) as Lw.
        replace (tlen t - (tlen t - j1)) with j1 in Lw by (unfold tlen; lia). replace (S (j2 - 1)) with j2 in Lw by lia.
        rewrite (linked_words_unique A _ _ _ _ Lw Ln). exact Hn.
    + unfold maxSrc. destruct (e_srclen P); [apply Sl; reflexivity|lia].
    + exact Mo.
    + intros E1 E2. destruct (Fu E1 E2) as [-> ->]. unfold nslen. cbn [length]. lia.
    + destruct (X (tlen t - j1) (j2 - 1) a) as [[[[a1 a2] b1] b2] [Hq [[O1 O2] Tq]]]; [apply (cells_in A (nul :: s) t DI' DJ' NE); exact Hr|exact Ha|exact Ok|].
      cbn [fst snd] in *. assert (b1 = j1) by (unfold tlen in *; lia). assert (b2 = j2) by lia. subst b1 b2.
      assert (E : forall k, i1 <= k <= i2 <-> a1 <= k <= a2) by (intros k; rewrite <- Ta; apply Tq).
      assert (a1 = i1 /\ a2 = i2) as [-> ->]; [|rewrite H1, H2 in Hq; exact Hq].
      pose proof (proj1 (E i1) ltac:(lia)). pose proof (proj1 (E i2) ltac:(lia)). pose proof (proj2 (E a1) ltac:(lia)). pose proof (proj2 (E a2) ltac:(lia)). lia.
Qed.
Print Assumptions C42_spans.
(** every output pair comes from a different, consistent span pair within the limits, with its words and its links as weight *)
Theorem C42_sound : forall (W : Type) (A : wam) (P : epars) (nul : W) s t old,
  wI A = length s -> wJ A = length t -> s <> [] -> length s < MAX_SENTENCE_LENGTH -> length t < MAX_SENTENCE_LENGTH ->
  exists L, NoDup L /\ Forall2 (extracted_from A P s t) L (extractOld A (nul :: s) t P old).
Proof.
  intros W A P nul s t old DI DJ Ne L1 L2. unfold extractOld, tlen, nslen. cbn [length].
  destruct (Nat.leb_spec MAX_SENTENCE_LENGTH (length t)); [lia|]. destruct (Nat.leb_spec MAX_SENTENCE_LENGTH (S (length s) - 1)); [lia|]. cbn [orb].
  destruct (extract_once A (nul :: s) t P) as [L [N F]].
  - unfold nslen. cbn [length]. lia.
  - exact DJ.
  - unfold nslen. destruct s; [contradiction|cbn; lia].
  - exists L. split; [exact N|]. induction F as [|q p L' l' Hq F IH]; [constructor|]. apply NoDup_cons_iff in N. constructor; [|apply IH, N].
    clear IH. destruct q as [[[i1 i2] j1] j2]. unfold sound, fits in Hq. unfold extracted_from. cbn [tl] in Hq. tauto.
Qed.
Print Assumptions C42_sound.
(** every consistent span pair within the limits whose outer source words are linked is extracted; the whole target sentence is
    only paired with the whole source sentence *)
Theorem C42_complete : forall (W : Type) (A : wam) (P : epars) (nul : W) s t old i1 i2 j1 j2,
  wI A = length s -> wJ A = length t -> length s < MAX_SENTENCE_LENGTH -> length t < MAX_SENTENCE_LENGTH ->
  consistent A i1 i2 j1 j2 -> src_linked A i1 -> src_linked A i2 ->
  (e_mono P = true -> monotone_at A i1 i2 j1 j2) -> (e_srclen P = true -> S i2 - i1 <= e_max P) -> (e_spur P = true -> S j2 - j1 <= e_max P) ->
  (e_spur P = false -> exists n, linked_words A j1 j2 n /\ n <= e_max P) ->
  (j1 = 1 -> j2 = length t -> i1 = 1 /\ i2 = length s) ->
  exists p, In p (extractOld A (nul :: s) t P old) /\ pp_s p = words s i1 i2 /\ pp_t p = words t j1 j2 /\ links_inside A i1 i2 j1 j2 (pp_sum p) (pp_num p).
Proof.
  intros W A P nul s t old i1 i2 j1 j2 DI DJ L1 L2 C S1 S2 Mo Sl Sp Ns Fu.
  assert (DI' : wI A = nslen (nul :: s) - 1) by (unfold nslen; cbn [length]; lia). assert (DJ' : wJ A = tlen t) by exact DJ.
  pose proof C as [B1 [B2 [B3 [B4 _]]]].
  assert (NE : 2 <= nslen (nul :: s)) by (unfold nslen; cbn [length]; lia).
  assert (Hr : inr_cell t (tlen t - j1) (j2 - 1)) by (unfold inr_cell, tlen; lia).
  destruct (cell_complete A (nul :: s) t P DI' DJ' NE i1 i2 j1 j2 C S1 S2) as [a [Ha [Ok [La Ta]]]].
  - unfold limit. destruct (e_spur P) eqn:E; apply Nat.leb_le.
    + specialize (Sp eq_refl). unfold lenInCell, tlen. lia.
    + destruct (Ns eq_refl) as [n [Ln Hn]]. pose proof (lenNonSpur_words A (nul :: s) t DI' DJ' NE _ _ Hr) as Lw.
      replace (tlen t - (tlen t - j1)) with j1 in Lw by (unfold tlen; lia). replace (S (j2 - 1)) with j2 in Lw by lia.
      rewrite (linked_words_unique A _ _ _ _ Lw Ln). exact Hn.
  - unfold maxSrc. destruct (e_srclen P); [apply Sl; reflexivity|lia].
  - exact Mo.
  - intros E1 E2. destruct (Fu E1 E2) as [-> ->]. unfold nslen. cbn [length]. lia.
  - exists (mk_pair A (nul :: s) t (tlen t - j1) (j2 - 1) (c_cov a)). split.
    + unfold extractOld, tlen, nslen. cbn [length]. destruct (Nat.leb_spec MAX_SENTENCE_LENGTH (length t)); [lia|]. destruct (Nat.leb_spec MAX_SENTENCE_LENGTH (S (length s) - 1)); [lia|]. cbn [orb].
      apply vec_in; auto. exists (tlen t - j1), (j2 - 1), a. auto.
    + destruct (mk_pair_spec A (nul :: s) t DI' DJ' NE (tlen t - j1) (j2 - 1) (c_cov a) i1 i2 Hr) as [E1 [E2 E3]]; [lia|unfold nslen; cbn [length]; lia|exact La|intros; apply Ta|].
      replace (tlen t - (tlen t - j1)) with j1 in * by (unfold tlen; lia). replace (S (j2 - 1)) with j2 in * by lia. auto.
Qed.
Print Assumptions C42_complete.
(** a one-word target sentence linked to the middle of three source words: the pair of the two linked words is consistent, has
    linked outer words and is within the limits, and nothing at all is extracted *)
Definition A_mid : wam := mkwam 3 1 (fun i j => if (i =? 1) && (j =? 0) then 1%N else 0%N).
Theorem C42_whole_target_refuted :
  consistent A_mid 2 2 1 1 /\ src_linked A_mid 2 /\ extractOld A_mid [0; 1; 2; 3] [9] (mkpars false 10 false true) [] = [].
Proof.
  assert (L21 : linked A_mid 2 1) by (unfold linked, link, AligSpec.inr; cbn; repeat split; try lia; discriminate).
  split; [|split; [exists 1; exact L21|vm_compute; reflexivity]].
  split; [lia|]. split; [cbn; lia|]. split; [lia|]. split; [cbn; lia|]. split; [exists 2, 1; split; [exact L21|lia]|].
  intros i j [H1 [H2 [[H3 H4] H5]]]. cbn in H3, H4. assert (j = 1) by lia. subst j. destruct i as [|[|[|[|i]]]]; cbn in H5; try lia; congruence.
Qed.
(** an empty source sentence (only the NULL word): a phrase pair with an empty source phrase and no link comes out (its weight is 0/0) *)
Theorem C42_empty_source_refuted :
  extractOld (mkwam 0 2 (fun _ _ => 0%N)) [0] [8; 9] (mkpars false 10 false true) [] = [mkpp [] [8; 9] 0%N 0].
Proof. vm_compute. reflexivity. Qed.
(** a target sentence of 101 words: the pairs of the previous call stay in the output vector *)
Theorem C42_too_long_refuted : forall (W : Type) (A : wam) (P : epars) ns (t : list W) old,
  MAX_SENTENCE_LENGTH <= length t -> extractOld A ns t P old = old.
Proof. intros W A P ns t old H. unfold extractOld, tlen. destruct (Nat.leb_spec MAX_SENTENCE_LENGTH (length t)); [reflexivity|lia]. Qed.
(** the hypotheses hold for a sentence pair with an unaligned source word and a many-to-one link *)
Definition A_ex : wam := mkwam 4 3 (fun i j => if ((i =? 0) && (j =? 1)) || ((i =? 2) && (j =? 0)) || ((i =? 3) && (j =? 0)) || ((i =? 3) && (j =? 2)) then 1%N else 0%N).
Example C42_nonvacuous :
  wI A_ex = length [1; 2; 3; 4] /\ extractOld A_ex [0; 1; 2; 3; 4] [7; 8; 9] (mkpars false 7 false true) [] =
    [mkpp [1] [8] 1%N 1; mkpp [1; 2] [8] 1%N 1; mkpp [1; 2; 3; 4] [7; 8; 9] 4%N 4].
Proof. split; vm_compute; reflexivity. Qed.

(** the Och extraction appends exactly the consistent span pairs within the length limit that have no two neighbouring unlinked
    target words between linked ones *)
Theorem C43_och_exact : forall (W : Type) (A : wam) (P : epars) (nul : W) s t old,
  wI A = length s -> wJ A = length t -> length s < MAX_SENTENCE_LENGTH -> length t < MAX_SENTENCE_LENGTH ->
  exists L, NoDup L /\
    (forall i1 i2 j1 j2, In (i1, i2, j1, j2) L <-> consistent A i1 i2 j1 j2 /\ no_wide_gap A j1 j2 /\ S j2 - j1 <= e_max P) /\
    extractOch A (nul :: s) t P old = old ++ map (fun q => let '(i1, i2, j1, j2) := q in mkpp (words s i1 i2) (words t j1 j2) 1%N 1) L.
Proof.
  intros W A P nul s t old DI DJ L1 L2.
  assert (DI' : wI A = nslen (nul :: s) - 1) by (unfold nslen; cbn [length]; lia). assert (DJ' : wJ A = tlen t) by exact DJ.
  unfold extractOch. unfold tlen at 1, nslen at 1. cbn [length]. destruct (Nat.leb_spec MAX_SENTENCE_LENGTH (length t)); [lia|]. destruct (Nat.leb_spec MAX_SENTENCE_LENGTH (S (length s) - 1)); [lia|]. cbn [orb].
  assert (LW : forall i1 i2 j1 j2, consistent A i1 i2 j1 j2 -> length (words t j1 j2) = S j2 - j1).
  { intros i1 i2 j1 j2 [_ [_ [B3 [B4 _]]]]. unfold words. rewrite firstn_length, skipn_length. lia. }
  pose proof (spans_in A (nul :: s) t DI' DJ') as SI. pose proof (spans_nodup A (nul :: s) t) as SN.
  set (good := fun q : nat * nat * nat * nat => let '(i1, i2, j1, j2) := q in S j2 - j1 <=? e_max P).
  exists (filter good (och_spans A (nul :: s) t)). split; [apply NoDup_filter; auto|]. split.
  - intros i1 i2 j1 j2. rewrite filter_In, SI. cbn [good]. rewrite Nat.leb_le. split.
    + intros [[a [b [c [d [E [C N]]]]]] Ln]. injection E as <- <- <- <-. auto.
    + intros [C [N Ln]]. split; [exists i1, i2, j1, j2; auto|exact Ln].
  - f_equal. assert (C : forall q, In q (och_spans A (nul :: s) t) -> let '(i1, i2, j1, j2) := q in consistent A i1 i2 j1 j2) by (intros q Hq; apply SI in Hq; destruct Hq as [i1 [i2 [j1 [j2 [-> [C _]]]]]]; exact C).
    clear SI SN. induction (och_spans A (nul :: s) t) as [|q l IH]; [reflexivity|]. pose proof (C q ltac:(left; reflexivity)) as Cq. destruct q as [[[i1 i2] j1] j2].
    cbn [map filter]. rewrite (och_pair_spec A (nul :: s) t DI' DJ' _ _ _ _ Cq). cbn [tl pp_t good]. rewrite (LW _ _ _ _ Cq). rewrite IH by (intros; apply C; right; auto).
    destruct (S j2 - j1 <=? e_max P); reflexivity.
Qed.
Print Assumptions C43_och_exact.
(** one source word linked to the first and the last of four target words: the pair is consistent and short enough, nothing is extracted *)
Definition A_gap : wam := mkwam 1 4 (fun i j => if (j =? 0) || (j =? 3) then 1%N else 0%N).
Theorem C43_unaligned_gap_refuted :
  consistent A_gap 1 1 1 4 /\ extractOch A_gap [0; 1] [6; 7; 8; 9] (mkpars false 7 false true) [] = [].
Proof.
  assert (L11 : linked A_gap 1 1) by (unfold linked, link, AligSpec.inr; cbn; repeat split; try lia; discriminate).
  split; [|vm_compute; reflexivity].
  split; [lia|]. split; [cbn; lia|]. split; [lia|]. split; [cbn; lia|]. split; [exists 1, 1; split; [exact L11|lia]|].
  intros i j [H1 [H2 [[H3 H4] H5]]]. cbn in H3, H4. lia.
Qed.
Example C43_nonvacuous :
  extractOch A_ex [0; 1; 2; 3; 4] [7; 8; 9] (mkpars false 7 false true) [mkpp [5] [5] 1%N 1] =
    [mkpp [5] [5] 1%N 1; mkpp [1] [8] 1%N 1; mkpp [1; 2] [8] 1%N 1; mkpp [1; 2; 3; 4] [7; 8; 9] 1%N 1].
Proof. vm_compute; reflexivity. Qed.
