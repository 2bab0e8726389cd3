(** Properties of hypotheses and their expansion in the phrase-based decoder (C77-C81). *)
From Coq Require Import Ascii String Arith List Bool Lia Sorted.
From Verif Require Import DecSpec DecModel DecGapProofs DecHypProofs DecProofs DecCheckProofs.
Import ListNotations.
Open Scope nat_scope.

(** ** C77: the gaps of a hypothesis are exactly the maximal uncovered runs, from left to right *)
Theorem C77_gaps_exact : forall n ss g, In g (extract_gaps n (getKey ss)) <-> is_gap n (covered ss) g.
Proof.
  intros n ss g. rewrite (proj2 (extract_gaps_spec (getKey ss) n)). unfold is_gap. rewrite !getKey_spec.
  split; intros (B1 & B2 & B3 & B4 & B5); (split; [assumption|]; split; [assumption|]; split; [|split; assumption]);
    intros j J X; apply (B3 j J); now apply getKey_spec.
Qed.
(** consecutive gaps are separated by at least one covered word *)
Theorem C77_gaps_ordered : forall n ss, StronglySorted (fun a b => snd a + 1 < fst b) (extract_gaps n (getKey ss)).
Proof. intros. apply extract_gaps_spec. Qed.
Theorem C77_num_gaps : forall n ss, get_num_gaps n (getKey ss) = length (extract_gaps n (getKey ss)).
Proof. intros. apply get_num_gaps_spec. Qed.
Example C77_nonvacuous : extract_gaps 7 (getKey [(6, 6); (2, 3)]) = [(1, 1); (4, 5); (7, 7)] /\ get_num_gaps 7 (getKey [(6, 6); (2, 3)]) = 3.
Proof. vm_compute. auto. Qed.

Section S.
Variable srcSent : list str.
Variable cm : constraints.
Variable itos : nat -> str.
Variable stoi : str -> nat.
Variable UNK : nat.
Variable UNKS : str.
Variable unseen : str -> bool.
Variable nbest : nat -> nat -> list (list nat).
Variables A U : nat.
Hypothesis constraints_ok : good_constraints (length srcSent) cm.
Hypothesis vocabulary_ok : forall c t, In c cm -> In t (snd c) -> itos (stoi t) = t.
Hypothesis no_unk_in_constraints : forall c, In c cm -> ~ In UNKS (snd c).
Local Notation reach := (reachable srcSent cm itos stoi UNK UNKS unseen nbest A U).
Local Notation exp := (expand srcSent cm itos stoi UNK UNKS unseen nbest A U).
Local Notation use := (usable srcSent cm stoi UNK unseen nbest A).

(** ** C78: expansion *)
(** every hypothesis the search can reach stands for an ordered list of translated segments: inside the sentence, pairwise disjoint, every one of
    them translated by a phrase it may be translated by *)
Theorem C78_reachable_well_formed : forall h, reach h ->
  exists ps, h = hyp_of ps /\ well_segmented (length srcSent) (map fst ps) /\ Forall (fun p => use (fst (fst p)) (snd (fst p)) (snd p)) ps.
Proof.
  intros h R. destruct (reachable_good _ _ _ _ _ _ _ _ _ _ constraints_ok vocabulary_ok no_unk_in_constraints h R) as (ps & -> & (W & _) & F).
  now exists ps.
Qed.
(** and expanding it yields exactly the hypotheses that translate one more segment lying inside a gap, starting at most U words after the first word
    of the gap, by a phrase that may translate it *)
Theorem C78_expand_exact : forall h, reach h -> exists ps l, h = hyp_of ps /\ exp h = Some l /\
  forall h', In h' l <-> exists g a b phr, is_gap (length srcSent) (covered (segs h)) g /\ fst g <= a <= b /\ b <= snd g /\ a - fst g <= U /\
    use a b phr /\ h' = hyp_of (ps ++ [((a, b), phr)]).
Proof.
  intros h R. destruct (reachable_good _ _ _ _ _ _ _ _ _ _ constraints_ok vocabulary_ok no_unk_in_constraints h R) as (ps & -> & G & F).
  destruct (expand_spec _ _ _ _ UNK _ unseen nbest A U constraints_ok vocabulary_ok no_unk_in_constraints ps G) as (l & E & H). now exists ps, l.
Qed.
(** no dead ends: if every word outside the constrained segments has a translation or is treated as unknown, an incomplete hypothesis has a successor *)
Theorem C78_no_dead_end : forall h, 1 <= A -> reach h -> isComplete (length srcSent) h = false ->
  (forall j, 1 <= j <= length srcSent -> (forall c, In c cm -> ~ in_seg (fst c) j) -> unseen (nth (j - 1) srcSent []) = true \/ nbest j j <> []) ->
  exists h' l, exp h = Some (h' :: l).
Proof.
  intros h A1 R I T. destruct (reachable_good _ _ _ _ _ _ _ _ _ _ constraints_ok vocabulary_ok no_unk_in_constraints h R) as (ps & -> & G & F).
  apply (no_dead_end _ _ _ _ UNK _ unseen nbest A U constraints_ok vocabulary_ok no_unk_in_constraints ps A1 G); [|exact T].
  assert (D : forall m, (forall j, 1 <= j <= m -> covered (map fst ps) j) \/ exists j, 1 <= j <= m /\ ~ covered (map fst ps) j).
  { induction m as [|m [IH|(j & J & N)]]; [left; intros; lia| |right; exists j; split; [lia|assumption]].
    destruct (cov_dec (map fst ps) (S m)) as [C|C]; [left|right; exists (S m); split; [lia|assumption]].
    intros j J. destruct (Nat.eq_dec j (S m)) as [->|]; [assumption|apply IH; lia]. }
  destruct (D (length srcSent)) as [D'|D']; [|exact D']. exfalso.
  destruct G as (W & _). assert (X : isComplete (length srcSent) (hyp_of ps) = true) by (now apply complete_iff). congruence.
Qed.

(** ** C79: coverage bookkeeping of reachable hypotheses *)
Theorem C79_complete_iff_all_covered : forall h, reach h ->
  (isComplete (length srcSent) h = true <-> forall j, 1 <= j <= length srcSent -> covered (segs h) j).
Proof.
  intros h R. destruct (C78_reachable_well_formed h R) as (ps & -> & W & _). now apply complete_iff.
Qed.
(** the uncovered words and the distance to the null hypothesis count positions of the sentence: no word is counted twice, no subtraction wraps *)
Theorem C79_counts : forall h, reach h ->
  let c := length (filter (fun j => existsb (fun s => (fst s <=? j) && (j <=? snd s)) (segs h)) (seq 1 (length srcSent))) in
  numberOfUncoveredSrcWords (length srcSent) h = length srcSent - c /\ distToNullHyp (length srcSent) h = c /\ c <= length srcSent.
Proof.
  intros h R c. destruct (C78_reachable_well_formed h R) as (ps & -> & W & _).
  destruct (uncovered_count (length srcSent) (hyp_of ps) W) as (E1 & E2). unfold covb in *. subst c. lia.
Qed.
(** each expansion strictly increases the distance to the null hypothesis, so chains of expansions are no longer than the sentence *)
Theorem C79_expansion_progress : forall h l h', reach h -> exp h = Some l -> In h' l -> distToNullHyp (length srcSent) h < distToNullHyp (length srcSent) h'.
Proof.
  intros h l h' R E I.
  destruct (C79_counts h R) as (_ & D1 & _). destruct (C79_counts h' (reach_exp _ _ _ _ _ _ _ _ _ _ _ _ _ R E I)) as (_ & D2 & _).
  destruct (C78_expand_exact h R) as (ps & l' & -> & E' & H). rewrite E in E'. injection E' as <-. apply H in I.
  destruct I as (g & a & b & phr & (G1 & G2 & G3 & _) & X1 & X2 & _ & _ & ->). rewrite D1, D2. clear - G1 G2 G3 X1 X2.
  cbn [hyp_of segs]. cbn [hyp_of segs] in G3. rewrite map_app. cbn [map fst].
  set (p := fun j => @existsb seg (fun s : seg => (fst s <=? j) && (j <=? snd s)) (map fst ps)).
  set (q := fun j => @existsb seg (fun s : seg => (fst s <=? j) && (j <=? snd s)) (map fst ps ++ [(a, b)])).
  assert (IMP : forall j, p j = true -> q j = true) by (intros j Pj; unfold q, p in *; rewrite existsb_app, Pj; reflexivity).
  assert (Q : q a = true).
  { unfold q. rewrite existsb_app. cbn [existsb fst snd]. replace (a <=? a) with true by (symmetry; apply Nat.leb_le; lia).
    replace (a <=? b) with true by (symmetry; apply Nat.leb_le; lia). now rewrite orb_true_r. }
  assert (P : p a = false).
  { apply not_true_is_false. intro X. apply (G3 a); [unfold in_seg; lia|]. apply covb_spec. exact X. }
  assert (IN : In a (seq 1 (length srcSent))) by (apply in_seq; lia).
  assert (W : forall l, length (filter p l) <= length (filter q l)).
  { induction l as [|x l IH]; [reflexivity|]. cbn [filter]. pose proof (IMP x). destruct (p x); [rewrite H by reflexivity; cbn [length]; lia|].
    destruct (q x); cbn [length]; lia. }
  change (length (filter p (seq 1 (length srcSent))) < length (filter q (seq 1 (length srcSent)))).
  revert IN. generalize (seq 1 (length srcSent)). intro l. induction l as [|x l IH]; [intros []|]. cbn [filter]. intros [->|I].
  - rewrite P, Q. cbn [length]. specialize (W l). lia.
  - specialize (IH I). pose proof (IMP x). destruct (p x); [rewrite H by reflexivity; cbn [length]; lia|]. destruct (q x); cbn [length]; lia.
Qed.

(** ** C81: user constraints and unknown words *)
(** no reachable hypothesis translates a word of a constrained segment otherwise than as the user said *)
Theorem C81_constraints_respected : forall h, reach h -> exists ps, h = hyp_of ps /\ respects itos cm ps.
Proof.
  intros h R. destruct (reachable_good _ _ _ _ _ _ _ _ _ _ constraints_ok vocabulary_ok no_unk_in_constraints h R) as (ps & -> & (_ & RS) & _). now exists ps.
Qed.
(** hence in a complete translation every constrained segment is a unit and gets exactly the user's words, in the stored phrase and in the output text *)
Theorem C81_complete_translation : forall h, reach h -> isComplete (length srcSent) h = true ->
  exists ps text, h = hyp_of ps /\ getTransInPlainTextVec srcSent cm itos UNKS h = Some text /\ text = flat_map (pair_text srcSent itos UNKS) ps /\
  forall c, In c cm -> exists p, In p ps /\ fst p = fst c /\ map itos (snd p) = snd c /\ pair_text srcSent itos UNKS p = snd c.
Proof.
  intros h R C. destruct (reachable_good _ _ _ _ _ _ _ _ _ _ constraints_ok vocabulary_ok no_unk_in_constraints h R) as (ps & -> & (W & RS) & _).
  exists ps, (flat_map (pair_text srcSent itos UNKS) ps). split; [reflexivity|]. split; [|split; [reflexivity|]].
  { apply text_spec; [assumption| |assumption]. exact (proj1 W). }
  intros c Hc. pose proof (gc_range _ _ constraints_ok c Hc) as RG.
  destruct (proj1 (complete_iff _ (hyp_of ps) W) C (fst (fst c))) as (s & S & Is); [lia|]. cbn [hyp_of segs] in S. apply in_map_iff in S. destruct S as (p & <- & P).
  destruct (RS c Hc p P) as (E1 & E2); [exists (fst (fst c)); split; [unfold in_seg; lia|assumption]|].
  exists p. split; [assumption|]. split; [assumption|]. split; [assumption|]. rewrite <- E2. unfold pair_text. apply map_ext_in. intros w Hw.
  destruct (list_eq_dec ascii_dec (itos w) UNKS) as [X|]; [|reflexivity]. exfalso. apply (no_unk_in_constraints c Hc). rewrite <- E2, <- X. now apply in_map.
Qed.
(** the output text of any reachable hypothesis is the text of its segments, in order *)
Theorem C81_text : forall h, reach h -> exists ps, h = hyp_of ps /\
  getTransInPlainTextVec srcSent cm itos UNKS h = Some (flat_map (pair_text srcSent itos UNKS) ps).
Proof.
  intros h R. destruct (reachable_good _ _ _ _ _ _ _ _ _ _ constraints_ok vocabulary_ok no_unk_in_constraints h R) as (ps & -> & (W & RS) & _).
  exists ps. split; [reflexivity|]. apply text_spec; [assumption|exact (proj1 W)|assumption].
Qed.
(** a source word without translations appears verbatim in the output *)
Theorem C81_unknown_word_copied : forall h j, reach h -> isComplete (length srcSent) h = true -> itos UNK = UNKS ->
  1 <= j <= length srcSent -> (forall c, In c cm -> ~ in_seg (fst c) j) -> unseen (nth (j - 1) srcSent []) = true ->
  (forall a b, a < b -> in_seg (a, b) j -> nbest a b = []) ->
  exists text, getTransInPlainTextVec srcSent cm itos UNKS h = Some text /\ In (nth (j - 1) srcSent []) text.
Proof.
  intros h j R C EU J NC UN NP. destruct (reachable_good _ _ _ _ _ _ _ _ _ _ constraints_ok vocabulary_ok no_unk_in_constraints h R) as (ps & -> & (W & RS) & F).
  eexists. split; [apply text_spec; [assumption|exact (proj1 W)|assumption]|].
  destruct (proj1 (complete_iff _ (hyp_of ps) W) C j J) as (s & S & Is). cbn [hyp_of segs] in S. apply in_map_iff in S. destruct S as (p & <- & P).
  rewrite Forall_forall in F. specialize (F p P). destruct p as [[a b] phr]. cbn [fst snd] in *.
  destruct F as [(t & T & _)|(_ & _ & X)]; [exfalso; exact (NC _ T Is)|].
  apply in_flat_map. exists ((a, b), phr). split; [assumption|]. unfold pair_text. cbn [fst snd]. unfold in_seg in Is. cbn [fst snd] in Is.
  destruct (Nat.eqb_spec a b) as [->|NE].
  - replace b with j in * by lia. cbn [andb] in X. rewrite UN in X. subst phr. cbn [map]. rewrite EU.
    destruct (list_eq_dec ascii_dec UNKS UNKS); [now left|congruence].
  - exfalso. cbn [andb] in X. rewrite NP in X; [inversion X|lia|split; cbn [fst snd]; lia].
Qed.
End S.

(** ** C80: reading back a hypothesis *)
(** removing the last translated segment gives back the hypothesis it was added to, provided some target word has been produced *)
Theorem C80_predecessor_undoes_extension : forall ps s phr, flat_map snd (ps ++ [(s, phr)]) <> [] ->
  obtainPredecessorHypData (extendHypDataIdx (fst s) (snd s) phr (hyp_of ps)) = Some (true, hyp_of ps).
Proof.
  intros ps s phr N. rewrite extend_hyp_of. replace (fst s, snd s) with s by (now destruct s). apply pred_hyp_of.
  intro E. apply N, length_zero_iff_nil, E.
Qed.
(** not so if all phrases so far are empty: the extended hypothesis claims to have no predecessor *)
Theorem C80_predecessor_refuted : exists ps s phr,
  obtainPredecessorHypData (extendHypDataIdx (fst s) (snd s) phr (hyp_of ps)) = Some (false, extendHypDataIdx (fst s) (snd s) phr (hyp_of ps)).
Proof. exists [], (1, 1), []. reflexivity. Qed.
Theorem C80_null_has_no_predecessor : obtainPredecessorHypData nullHypothesisHypData = Some (false, nullHypothesisHypData).
Proof. reflexivity. Qed.
(** the phrase reported for a translated segment is the one it was translated by; nothing is reported for other segments *)
Theorem C80_phrase_of_segment : forall n ps s phr, well_segmented n (map fst ps) -> In (s, phr) ps -> getTrgTransForSrcPhr (hyp_of ps) s = Some phr.
Proof.
  intros n ps s phr (F & D) I. apply in_split in I. destruct I as (a & b & ->). apply phrase_of_seg. intro X.
  rewrite map_app in D, F. cbn [map fst] in D, F. rewrite Forall_forall in F. specialize (F s (in_elt _ _ _)).
  assert (H : Forall (disjoint s) (map fst b)).
  { clear -D. induction (map fst a) as [|x l IH]; inversion D; subst; auto. }
  rewrite Forall_forall in H. apply (H s X (fst s)). unfold in_seg. lia.
Qed.
Theorem C80_phrase_of_other : forall ps s, ~ In s (map fst ps) -> getTrgTransForSrcPhr (hyp_of ps) s = Some [].
Proof. intros. now apply phrase_of_absent. Qed.
(** source position j and target position i are aligned iff j lies in a segment whose phrase holds the i-th target word *)
Theorem C80_alignment : forall ps j i, exists v, areAligned (hyp_of ps) j i = Some v /\
  (v = true <-> exists a p b, ps = a ++ p :: b /\ in_seg (fst p) j /\ length (flat_map snd a) < i <= length (flat_map snd a) + length (snd p)).
Proof. exact areAligned_spec. Qed.
Theorem C80_isAligned : forall h j, isAligned h j = true <-> covered (segs h) j.
Proof. intros. apply covb_spec. Qed.

Definition tstr (s : string) : str := list_ascii_of_string s.
(** the check on its own is weaker than the property: it accepts a translation that breaks a constrained segment in the middle, when the segment's first word
    is not covered *)
Theorem C81_check_alone_refuted : exists cm ss cs words, ~ (forall c s, In c cm -> In s ss -> overlaps (fst c) s -> s = fst c) /\
  translationSatisfiesConstraints cm ss cs words = Some true.
Proof.
  exists [((2, 3), [tstr "X"])], [(3, 3)], [1], [tstr "y"]. split; [|reflexivity]. intro H. specialize (H _ _ (or_introl eq_refl) (or_introl eq_refl)).
  assert (E : (3, 3) = (2, 3)); [|discriminate]. apply H. exists 3. unfold in_seg. cbn. lia.
Qed.

(** A concrete sentence: "a b c d" with the constraint b c -> X Y; d is unknown. *)
Definition xsrc := map tstr ["a"; "b"; "c"; "d"]%string.
Definition xcm : constraints := [((2, 3), map tstr ["X"; "Y"]%string)].
Definition xitos (w : nat) : str := nth w (map tstr ["NULL"; "UNKW"; "p"; "q"; "X"; "Y"]%string) [].
Definition xstoi (s : str) : nat := if str_dec s (tstr "X") then 4 else if str_dec s (tstr "Y") then 5 else 1.
Definition xunseen (s : str) : bool := str_eqb s (tstr "d").
Definition xnbest (l r : nat) : list (list nat) := if (l =? 1) && (r =? 1) then [[2]; [3; 2]] else [].
Definition xexp := expand xsrc xcm xitos xstoi 1 (tstr "UNKW") xunseen xnbest 3 10.
Lemma xok : good_constraints (length xsrc) xcm /\ (forall c t, In c xcm -> In t (snd c) -> xitos (xstoi t) = t) /\ (forall c, In c xcm -> ~ In (tstr "UNKW") (snd c)).
Proof.
  split; [split; [split|]|split].
  - repeat constructor.
  - repeat constructor.
  - repeat constructor. discriminate.
  - intros c t [<-|[]] [<-|[<-|[]]]; reflexivity.
  - intros c [<-|[]] [H|[H|[]]]; discriminate.
Qed.
Definition xfull := hyp_of [((2, 3), [4; 5]); ((4, 4), [1]); ((1, 1), [3; 2])].
Lemma xreach : reachable xsrc xcm xitos xstoi 1 (tstr "UNKW") xunseen xnbest 3 10 xfull.
Proof.
  assert (E1 : exists l, xexp nullHypothesisHypData = Some l /\ In (hyp_of [((2, 3), [4; 5])]) l) by (eexists; split; [vm_compute; reflexivity|vm_compute; tauto]).
  assert (E2 : exists l, xexp (hyp_of [((2, 3), [4; 5])]) = Some l /\ In (hyp_of [((2, 3), [4; 5]); ((4, 4), [1])]) l) by (eexists; split; [vm_compute; reflexivity|vm_compute; tauto]).
  assert (E3 : exists l, xexp (hyp_of [((2, 3), [4; 5]); ((4, 4), [1])]) = Some l /\ In xfull l) by (eexists; split; [vm_compute; reflexivity|vm_compute; tauto]).
  destruct E1 as (l1 & E1 & I1), E2 as (l2 & E2 & I2), E3 as (l3 & E3 & I3).
  eapply reach_exp; [|exact E3|exact I3]. eapply reach_exp; [|exact E2|exact I2]. eapply reach_exp; [constructor|exact E1|exact I1].
Qed.
Example C78_nonvacuous : xexp nullHypothesisHypData = Some [hyp_of [((1, 1), [2])]; hyp_of [((1, 1), [3; 2])]; hyp_of [((2, 3), [4; 5])]; hyp_of [((4, 4), [1])]].
Proof. reflexivity. Qed.
Example C79_nonvacuous : isComplete 4 xfull = true /\ distToNullHyp 4 xfull = 4 /\ distToNullHyp 4 (hyp_of [((2, 3), [4; 5])]) = 2.
Proof. vm_compute. auto. Qed.
Example C80_nonvacuous : getTrgTransForSrcPhr xfull (1, 1) = Some [3; 2] /\ areAligned xfull 3 1 = Some true /\ areAligned xfull 1 3 = Some false /\
  obtainPredecessorHypData xfull = Some (true, hyp_of [((2, 3), [4; 5]); ((4, 4), [1])]).
Proof. vm_compute. auto. Qed.
Example C81_nonvacuous : getTransInPlainTextVec xsrc xcm xitos (tstr "UNKW") xfull = Some (map tstr ["X"; "Y"; "d"; "q"; "p"]%string) /\
  isComplete (length xsrc) xfull = true.
Proof. vm_compute. auto. Qed.

(** ** more on the stored data and on the check (C80, C81) *)
(** the last source position covered is the end of the segment translated last, 0 for the null hypothesis *)
Theorem C80_last_source_position : forall ps s phr, getLastSrcPosCovered (hyp_of (ps ++ [(s, phr)])) = snd s /\ getLastSrcPosCovered nullHypothesisHypData = 0.
Proof.
  intros ps s phr. split; [|reflexivity]. unfold getLastSrcPosCovered. cbn [hyp_of segs]. rewrite map_app. cbn [map fst].
  destruct (map fst ps) as [|x l]; [reflexivity|]. cbn [app]. now rewrite last_last.
Qed.
(** the check accepts a complete translation exactly when every constrained segment is a unit with the words asked for *)
Theorem C81_check_exact : forall n cs ps, good_constraints n cs -> well_segmented n (map fst ps) -> (forall j, 1 <= j <= n -> covered (map fst ps) j) ->
  exists b, translationSatisfiesConstraints cs (map fst ps) (lens 0 ps) (flat_map snd ps) = Some b /\
    (b = true <-> forall c, In c cs -> In c ps).
Proof.
  intros n cs ps ((F & _) & _) (_ & D) C. destruct (check_all cs ps D) as (b & E & B). exists b. split; [exact E|]. rewrite B. rewrite Forall_forall in F.
  split; intros K c Hc; destruct (F (fst c) (in_map fst _ _ Hc)) as (R1 & R2).
  - destruct (C (fst (fst c))) as (s & S & I); [lia|]. apply in_map_iff in S. destruct S as (p & <- & P). rewrite <- (K c Hc p P I). exact P.
  - intros p P I. specialize (K c Hc). apply in_split in K. destruct K as (a & b2 & ->). eapply first_unique; eauto. unfold in_seg. lia.
Qed.
Example C81_check_nonvacuous : translationSatisfiesConstraints [((2, 3), [tstr "X"; tstr "Y"])] [(2, 3); (1, 1)] [2; 3] [tstr "X"; tstr "Y"; tstr "p"] = Some true /\
  translationSatisfiesConstraints [((2, 3), [tstr "X"; tstr "Y"])] [(2, 3); (1, 1)] [2; 3] [tstr "X"; tstr "Z"; tstr "p"] = Some false.
Proof. vm_compute. auto. Qed.
Print Assumptions C80_last_source_position. Print Assumptions C81_check_exact.
Print Assumptions C77_gaps_exact.
Print Assumptions C78_expand_exact.
Print Assumptions C78_no_dead_end.
Print Assumptions C79_expansion_progress.
Print Assumptions C80_predecessor_undoes_extension.
Print Assumptions C81_complete_translation.
Print Assumptions C81_unknown_word_copied.
