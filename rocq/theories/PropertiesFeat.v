(** Properties of the scores of hypotheses (C86) and of their recombination (C87). *)
From Coq Require Import ZArith Arith List Bool Lia.
From Verif Require Import DecSpec DecModel DecGapProofs DecHypProofs FeatSpec FeatModel FeatProofs FeatRecProofs.
Import ListNotations.
Open Scope nat_scope.
Section P.
Variable src : list nat.
Variable feats : list (feature * Z).
Notation n := (length src).
(** scores computed by the decoder along any sequence of extensions, one or several segments at a time *)
Inductive scored : list (seg * list nat) -> scrinfo -> Prop :=
| scored_null : scored [] (fst (nullHypothesisScrComps feats))
| scored_ext : forall a b s s' c, scored a s -> all_covered n (map fst a) = false -> b <> [] -> well_segmented n (map fst (a ++ b)) ->
    incrScore src feats (hyp_of a) (hyp_of (a ++ b)) s = Some (s', c) -> scored (a ++ b) s'.
(** ** C86: the score of a hypothesis is the log-linear combination of its features on the whole translation, whatever the order of the computations *)
Theorem C86_score_is_model_score : src <> [] -> forall ps s, scored ps s -> score s = model_score src feats ps.
Proof.
  intros NE ps s S. destruct (null_ok src feats NE) as (h0 & N). induction S as [|a b s s' c S IH NC NB W E]; [now rewrite N|].
  rewrite (incr_ok src feats s a b W NC) in E. inversion E; subst. cbn [score]. lia.
Qed.
Theorem C86_extension_defined : forall a b s, all_covered n (map fst a) = false -> well_segmented n (map fst (a ++ b)) ->
  exists s' c, incrScore src feats (hyp_of a) (hyp_of (a ++ b)) s = Some (s', c) /\ length c = length feats /\
    score s' = (score s + (model_score src feats (a ++ b) - model_score src feats a))%Z /\
    forall i f w, nth_error feats i = Some (f, w) -> nth_error c i = Some (feature_score src f (a ++ b) - feature_score src f a)%Z.
Proof.
  intros a b s NC W. rewrite (incr_ok src feats s a b W NC). do 2 eexists. split; [reflexivity|]. split; [apply map_length|]. split; [reflexivity|].
  intros i f w E. now rewrite nth_error_map, E.
Qed.
(** the components printed with a translation are its feature values, so that weighting them gives its score *)
Theorem C86_printed_components : forall ps, src <> [] -> well_segmented n (map fst ps) ->
  printedComps src feats (hyp_of ps) = Some (map (fun fw => feature_score src (fst fw) ps) feats).
Proof.
  intros ps NE W. unfold printedComps. destruct (null_ok src feats NE) as (h0 & ->). change hd_null with (hyp_of []). pose proof (incr_ok src feats {| score := model_score src feats []; lmHist := h0 |} [] ps) as E. cbn [app] in E.
  rewrite E; [|exact W|destruct src; [congruence|reflexivity]]. f_equal. clear. induction feats as [|fw fs IH]; cbn [map combine fst snd]; [reflexivity|]. f_equal; [lia|exact IH].
Qed.
Theorem C86_components_give_score : src <> [] -> forall ps s c, scored ps s -> well_segmented n (map fst ps) -> printedComps src feats (hyp_of ps) = Some c ->
  score s = fold_right Z.add 0%Z (map (fun p => (snd (fst p) * snd p)%Z) (combine feats c)).
Proof.
  intros NE ps s c S W E. rewrite (C86_score_is_model_score NE _ _ S). rewrite (C86_printed_components ps NE W) in E. inversion E; subst. unfold model_score. clear.
  induction feats as [|[f w] fs IH]; cbn [weighted map combine fold_right fst snd]; [reflexivity|]. now rewrite IH.
Qed.
(** ** C87: recombination.  Hypotheses with the same state can be extended in the same ways, with the same gain, into hypotheses with the same state *)
Definition one_lm : Prop := exists f1 f w f2, feats = f1 ++ (f, w) :: f2 /\ is_lm f = true /\
  forallb (fun fw => negb (is_lm (fst fw))) f1 = true /\ forallb (fun fw => negb (is_lm (fst fw))) f2 = true.
Definition no_lm : Prop := forallb (fun fw => negb (is_lm (fst fw))) feats = true.
Lemma null_hist : forall fs s c, lmHist (fst (fold_left (fun a fw => let '(s, c) := a in let '(s', u) := nullHypScore (fst fw) (snd fw) s in (s', c ++ [u])) fs (s, c))) =
  fold_left (fun h fw => match fst fw with FLang bos _ _ _ => bos | _ => h end) fs (lmHist s).
Proof. induction fs as [|[f w] fs IH]; intros s c; cbn [fold_left fst snd]; [reflexivity|]. destruct f; cbn [nullHypScore]; rewrite IH; reflexivity. Qed.
Lemma scored_hist : src <> [] -> forall ps s, scored ps s -> exists h, lmHist s = hists src feats ps h.
Proof.
  intros NE ps s S. destruct S as [|a b s s' c S NC NB W E].
  - unfold nullHypothesisScrComps. rewrite null_hist. cbn [lmHist]. exists [].
    assert (N : all_covered n [] = false) by (destruct src; [congruence|reflexivity]). unfold hists. generalize feats as fs. generalize (@nil nat) as h0. intros h0 fs. revert h0.
    induction fs as [|[f w] fs IH]; intro h; cbn [fold_left fst]; [reflexivity|]. rewrite <- IH. f_equal. unfold hist_after. destruct f; auto. cbn [map]. rewrite N. reflexivity.
  - rewrite (incr_ok src feats s a b W NC) in E. inversion E; subst. exists (lmHist s). reflexivity.
Qed.
Lemma scored_well : forall ps s, scored ps s -> well_segmented n (map fst ps).
Proof. intros ps s []; auto. split; constructor. Qed.
Lemma endof_last : forall ps, hs_endLast (getHypState (hyp_of ps) {| score := 0; lmHist := [] |}) = endof ps.
Proof.
  intros ps. unfold getHypState, endof. cbn [hs_endLast hyp_of segs]. destruct ps as [|p ps]; [reflexivity|]. cbn [map]. f_equal. generalize (fst p) as x, (map fst ps) as l. clear.
  intros x l. destruct l as [|y l]; [reflexivity|]. cbn [last]. revert y. induction l as [|z l IH]; intro y; [reflexivity|]. cbn [last]. apply IH.
Qed.
Theorem C87_same_state_same_future : src <> [] -> one_lm \/ no_lm -> forall a a' s s' b, scored a s -> scored a' s' ->
  hypstate_eq (getHypState (hyp_of a) s) (getHypState (hyp_of a') s') -> all_covered n (map fst a) = false -> well_segmented n (map fst (a ++ b)) ->
  well_segmented n (map fst (a' ++ b)) /\ all_covered n (map fst a') = false /\
  exists t t' c, incrScore src feats (hyp_of a) (hyp_of (a ++ b)) s = Some (t, c) /\ incrScore src feats (hyp_of a') (hyp_of (a' ++ b)) s' = Some (t', c) /\
    (score t - score s = score t' - score s')%Z /\ hypstate_eq (getHypState (hyp_of (a ++ b)) t) (getHypState (hyp_of (a' ++ b)) t').
Proof.
  intros NE LM a a' s s' b S S' (Q1 & Q2 & Q3 & Q4) NC W.
  pose proof (endof_last a) as EA. pose proof (endof_last a') as EA'. cbn [getHypState hs_lmHist hs_trglen hs_endLast hs_key] in *. rewrite EA, EA' in Q3. clear EA EA'.
  assert (CV : forall j, covered (map fst a) j <-> covered (map fst a') j) by (intro j; rewrite <- !getKey_spec; specialize (Q4 j); cbn [hyp_of segs] in Q4; rewrite Q4; tauto).
  assert (TL : tlen a = tlen a') by (cbn [hyp_of ntarget length] in Q2; lia).
  assert (NC' : all_covered n (map fst a') = false) by now rewrite <- (all_ext src _ _ CV).
  assert (AL : forall f w, In (f, w) feats -> alike f a a').
  { intros f w I. split; [|auto]. destruct f; auto. destruct LM as [(f1 & g & v & f2 & E & L & N1 & N2)|N].
    - destruct (scored_hist NE a s S) as (h & H1), (scored_hist NE a' s' S') as (h' & H1'). rewrite E, hists_one in H1, H1' by auto. rewrite E in I. apply in_app_iff in I.
      assert (X : forall l, forallb (fun fw => negb (is_lm (fst fw))) l = true -> ~ In (FLang bos lp lpend eos, w) l) by (intros l A B; rewrite forallb_forall in A; specialize (A _ B); discriminate).
      destruct I as [I|[I|I]]; [destruct (X _ N1 I)| |destruct (X _ N2 I)]. inversion I; subst. cbn [hist_after] in *. rewrite NC, app_nil_r in H1. rewrite NC', app_nil_r in H1'. congruence.
    - unfold no_lm in N. rewrite forallb_forall in N. specialize (N _ I). discriminate. }
  assert (W' : well_segmented n (map fst (a' ++ b))) by (apply (well_ext src a); auto; eapply scored_well; eauto).
  split; [exact W'|]. split; [exact NC'|]. rewrite (incr_ok src feats s a b W NC), (incr_ok src feats s' a' b W' NC').
  do 3 eexists. split; [reflexivity|]. split.
  - apply f_equal. apply (f_equal2 pair); [reflexivity|]. apply map_ext_in. intros [f w] I. cbn [fst]. symmetry. apply feature_ext; eauto.
  - split.
    + cbn [score]. unfold model_score. rewrite <- !weighted_sub. revert AL. clear -NC. generalize feats as fs. induction fs as [|[f w] fs IH]; intro AL; cbn [weighted]; [lia|].
      pose proof (feature_ext src f b a a' (AL f w (or_introl eq_refl)) NC). specialize (IH (fun f w I => AL f w (or_intror I))). lia.
    + pose proof (endof_last (a ++ b)) as EA. pose proof (endof_last (a' ++ b)) as EA'. unfold hypstate_eq. cbn [getHypState hs_lmHist hs_trglen hs_endLast hs_key lmHist] in *. rewrite EA, EA'.
      assert (AL0 : alike (FPhrase (fun _ _ => 0%Z)) (a ++ b) (a' ++ b)) by (apply alike_app; split; [exact I|auto]). destruct AL0 as (_ & T & En & Cv). split; [|split; [|split]].
      * destruct LM as [(f1 & g & v & f2 & E & L & N1 & N2)|N].
        -- rewrite E, !hists_one by auto. pose proof (alike_app g b a a' (AL g v ltac:(rewrite E; apply in_elt))) as (A & _). destruct g; try discriminate. cbn [hist_after]. rewrite !history_app, A. now rewrite (all_ext src _ _ Cv).
        -- rewrite !hists_nolm by auto. exact Q1.
      * cbn [hyp_of ntarget length]. lia.
      * exact En.
      * intro j. cbn [hyp_of segs]. destruct (getKey (map fst (a ++ b)) j) eqn:X, (getKey (map fst (a' ++ b)) j) eqn:Y; auto; [apply getKey_spec, Cv, getKey_spec in X|apply getKey_spec, Cv, getKey_spec in Y]; congruence.
Qed.
End P.
(** with two language models the state does not determine the future: both write the same history *)
Definition xlm (k : nat) : feature := FLang [0] (fun h w => match h with [x] => Z.of_nat (if x =? k then 1 else 0) | _ => 0%Z end) (fun _ => 0%Z) 9.
Definition xlm3 : feature := FLang [0; 0] (fun h w => match h with x :: _ => Z.of_nat x | _ => 0%Z end) (fun _ => 0%Z) 9.
Definition xfs : list (feature * Z) := [(xlm3, 1%Z); (xlm 5, 1%Z)].
Theorem C87_several_language_models_refuted : exists src feats a a' s s' p t t' c c', scored src feats a s /\ scored src feats a' s' /\
  hypstate_eq (getHypState (hyp_of a) s) (getHypState (hyp_of a') s') /\
  incrScore src feats (hyp_of a) (hyp_of (a ++ [p])) s = Some (t, c) /\ incrScore src feats (hyp_of a') (hyp_of (a' ++ [p])) s' = Some (t', c') /\
  (score t - score s <> score t' - score s')%Z.
Proof.
  exists [1; 2], xfs, [((1, 1), [3; 4])], [((1, 1), [5; 4])]. do 2 eexists. exists ((2, 2), [4]). do 4 eexists.
  assert (W : forall x, well_segmented 2 (map fst ([] ++ [((1, 1), x) : seg * list nat]))) by (intro x; split; [repeat constructor|repeat constructor]).
  split; [eapply (scored_ext [1; 2] xfs [] [((1, 1), [3; 4])]); [constructor|reflexivity|discriminate|apply W|vm_compute; reflexivity]|].
  split; [eapply (scored_ext [1; 2] xfs [] [((1, 1), [5; 4])]); [constructor|reflexivity|discriminate|apply W|vm_compute; reflexivity]|].
  split; [repeat split; reflexivity|]. split; [vm_compute; reflexivity|]. split; [vm_compute; reflexivity|]. cbn. lia.
Qed.
Definition yfs : list (feature * Z) := [(xlm 5, 2%Z); (FWordPen (fun k => Z.of_nat (2 * k)) (fun k => Z.of_nat k), 3%Z); (FPhrase (fun a b => (Z.of_nat (length a) - Z.of_nat (length b))%Z), 1%Z); (FJump (fun k => (- Z.of_nat k)%Z), 1%Z)].
Example C86_nonvacuous : exists s, scored [7; 8; 9] yfs ([((2, 3), [5; 5])] ++ [((1, 1), [6])]) s /\ score s = 18%Z /\
  printedComps [7; 8; 9] yfs (hyp_of [((2, 3), [5; 5]); ((1, 1), [6])]) = Some [2; 6; 0; -4]%Z.
Proof.
  eexists. split.
  - eapply (scored_ext [7; 8; 9] yfs [((2, 3), [5; 5])] [((1, 1), [6])]); [|reflexivity|discriminate|repeat constructor; intros j [A B]; unfold in_seg in *; cbn in *; lia|vm_compute; reflexivity].
    eapply (scored_ext [7; 8; 9] yfs [] [((2, 3), [5; 5])]); [constructor|reflexivity|discriminate|repeat constructor|vm_compute; reflexivity].
  - vm_compute. auto.
Qed.
Example C87_nonvacuous : one_lm yfs /\ hypstate_eq (getHypState (hyp_of [((2, 3), [5; 5])]) {| score := 0; lmHist := [5] |}) (getHypState (hyp_of [((2, 2), [6]); ((3, 3), [5])]) {| score := 4; lmHist := [5] |}).
Proof.
  split; [exists [], (xlm 5), 2%Z, (tl yfs); repeat split; reflexivity|]. split; [reflexivity|]. split; [reflexivity|]. split; [reflexivity|]. intro j. destruct j as [|[|[|[|j]]]]; reflexivity.
Qed.
Print Assumptions C86_score_is_model_score.
Print Assumptions C86_extension_defined.
Print Assumptions C86_printed_components.
Print Assumptions C86_components_give_score.
Print Assumptions C87_same_state_same_future.
Print Assumptions C87_several_language_models_refuted.
