(** C90-C91: the phrase-based decoder as a whole (translation model, features, heuristic and search together). *)
From Coq Require Import Ascii String ZArith Arith List Bool Lia.
From Verif Require Import DecSpec DecModel DecGapProofs DecHypProofs DecProofs FeatSpec FeatModel FeatProofs FeatRecProofs PropertiesFeat HeurSpec HeurModel StackSpec StackModel SearchSpec SearchModel PropertiesSearch WgSpec WgModel WgNbMore SearchWgSpec SearchWgModel PropertiesSearchWg PbSpec PbModel PbProofs PbCodeProofs.
Import ListNotations.
Open Scope nat_scope.
Section Pb.
(** the sentence as words and as word numbers, constraints, vocabulary, phrase table, the limits on phrase length and skipped words, weighted features *)
Variable srcSent : list str.
Variable ids : list nat.
Variables (cm : constraints) (itos : nat -> str) (stoi : str -> nat) (UNK : nat) (UNKS : str) (unseen : str -> bool).
Variable nbest : nat -> nat -> list (list nat).
Variables A U : nat.
Variable feats : list (feature * Z).
Hypothesis ids_len : length ids = length srcSent.
Hypothesis nonempty : srcSent <> [].
Hypothesis constraints_ok : good_constraints (length srcSent) cm.
Hypothesis vocabulary_ok : forall c t, In c cm -> In t (snd c) -> itos (stoi t) = t.
Hypothesis no_unk_in_constraints : forall c, In c cm -> ~ In UNKS (snd c).
Hypothesis at_most_one_lm : one_lm feats \/ no_lm feats.
(** heuristic: none, or the local one *)
Variable hc : option ((nat -> nat -> list nat -> Z) * Z * Z).
Notation n := (length srcSent).
Notation deriv := (derivation n (usable srcSent cm stoi UNK unseen nbest A) U).
Notation ms := (model_score ids feats).
Notation succs := (pbsuccs srcSent ids cm itos stoi UNK UNKS unseen nbest A U feats).
Notation start := (pbstart feats, pbs0 feats).
(** the search (C83-C85) on this model: how hypotheses are stored (enc, dec), states, classes; parameters of the decoder *)
Notation translate enc dec st cl bf prune I MAXIT GEPS LOWEST WORST max flag :=
  (SearchModel.translate pbhyp enc dec st cl (pbheur srcSent nbest A hc) (pbdist srcSent) (pbcomplete srcSent) succs start bf prune I MAXIT GEPS LOWEST WORST max flag start).
Notation session enc dec st cl bf prune I MAXIT GEPS LOWEST WORST max flag :=
  (SearchModel.session pbhyp enc dec st cl (pbheur srcSent nbest A hc) (pbdist srcSent) (pbcomplete srcSent) succs start bf prune I MAXIT GEPS LOWEST WORST max flag start).
(** states are numbered according to the equality of the decoder's state records *)
Notation states_ok st := (codes srcSent ids cm itos stoi UNK UNKS unseen nbest A U feats st).
(** breadth-first search: the class of a hypothesis starts with its number of translated words *)
Notation classes_ok bf cl := (bf = true -> forall h, fst (cl h) = pbdist srcSent h).

(** ** C90 with one hypothesis taken per iteration and enough room, the decoder returns a translation of the whole sentence whose score under the log-linear model is the highest
    among all translations of the whole sentence allowed by the phrase table, the constraints and the limits; and it gives every constrained segment the user's words. *)
Theorem C90_decoder_optimal : exists N, forall enc dec st cl bf prune MAXIT GEPS LOWEST WORST max flag,
  (forall h, dec (enc h) = h) -> states_ok st -> classes_ok bf cl ->
  N <= max -> N < MAXIT -> (forall ps, deriv ps -> (LOWEST <= ms ps)%Z) ->
  (bf = false -> flag = false /\ forall ps a b phr, deriv ps -> deriv (ps ++ [((a, b), phr)]) -> (ms (ps ++ [((a, b), phr)]) - ms ps <= bound nbest A hc a b)%Z) ->
  (prune = true -> bf = false /\ forall ps, deriv ps -> full n ps -> (WORST <= ms ps)%Z) ->
  (exists ps, deriv ps /\ full n ps) ->
  exists ps lm it D, translate enc dec st cl bf prune 1 MAXIT GEPS LOWEST WORST max flag = Some ((hyp_of ps, lm, ms ps), it, D) /\
    deriv ps /\ full n ps /\ respects itos cm ps /\ forall ps', deriv ps' -> full n ps' -> (ms ps' <= ms ps)%Z.
Proof.
  assert (FS : exists size, finite_space pbhyp succs (pbstart feats) size).
  { apply (C83_progress_is_finite pbhyp (pbdist srcSent) succs (pbstart feats) n). intros a b e F I. eapply pb_progress; eauto. }
  destruct FS as (size & FS). exists (size (pbstart feats)). intros enc dec st cl bf prune MAXIT GEPS LOWEST WORST max flag DE ST CL MX IT LOW BF PR (ps0 & D0 & F0).
  assert (EX : exists s, best_score pbhyp succs (pbcomplete srcSent) (pbstart feats) (pbs0 feats) s).
  { eapply best_exists; eauto. destruct (deriv_ext srcSent ids cm itos stoi UNK UNKS unseen nbest A U feats ids_len constraints_ok vocabulary_ok no_unk_in_constraints ps0 D0) as (h & e & X & K). exists h, e. split; [auto|]. eapply known_full; eauto. }
  destruct EX as (B & BS). assert (BS' := BS). destruct BS' as ((cb & eb & Xb & Cb & EB) & _).
  assert (KN : forall h e, extends pbhyp succs (pbstart feats) h e -> exists ps, known srcSent ids cm itos stoi UNK unseen nbest A U feats ps h (pbs0 feats + e)) by (intros; eapply ext_known; eauto).
  assert (KS : forall ps h sc, known srcSent ids cm itos stoi UNK unseen nbest A U feats ps h sc -> sc = ms ps) by (intros; eapply known_score; eauto).
  assert (KD : forall ps h sc, known srcSent ids cm itos stoi UNK unseen nbest A U feats ps h sc -> deriv ps) by (intros ps h sc (s & _ & _ & _ & _ & D); exact D).
  destruct (C84_best_translation pbhyp enc dec st cl (pbheur srcSent nbest A hc) (pbdist srcSent) (pbcomplete srcSent) succs start (pbstart feats) (pbs0 feats) n bf prune 1 MAXIT GEPS LOWEST WORST max flag size B)
    as (t & sc & it & D & E & Ct & Esc & e & X & Es); auto.
  - eapply pb_measured; eauto.
  - unfold pbcomplete, isComplete. cbn. destruct srcSent; [congruence|reflexivity].
  - intros h e X. destruct (KN h e X) as (ps & K). rewrite (KS _ _ _ K). apply LOW. eauto.
  - eapply pb_sound; eauto.
  - intro Q. destruct (BF Q) as (F & G). split; [auto|]. eapply pb_admissible; eauto.
  - intro Q. destruct (PR Q) as (F & G). split; [auto|]. destruct (KN _ _ Xb) as (ps & K). rewrite EB, (KS _ _ _ K). apply G; [eauto|]. eapply known_full; eauto.
  - destruct (KN _ _ X) as (ps & K). assert (Q : sc = ms ps) by (rewrite Es; eauto). assert (K' := K). destruct K' as (s & -> & _ & _ & (_ & RS) & _). exists ps, (lmHist s), it, D. rewrite Q in E. split; [exact E|]. split; [eauto|]. split; [eapply known_full; eauto|]. split; [exact RS|].
    intros ps' D' F'. destruct (deriv_ext srcSent ids cm itos stoi UNK UNKS unseen nbest A U feats ids_len constraints_ok vocabulary_ok no_unk_in_constraints ps' D') as (h & e' & X' & K').
    rewrite <- Q, Esc, <- (KS _ _ _ K'). apply (proj2 BS h e' X'). eapply known_full; eauto.
Qed.
(** whatever the parameters, translating a sentence and asking for any number of further translations ends and never fails; every result is a (possibly partial) translation allowed
    by the phrase table, the constraints and the limits, with its score under the model; one that is not complete means that there are no more. *)
Theorem C90_decoder_safe : exists N, forall enc dec st cl bf prune I MAXIT GEPS LOWEST WORST max flag,
  (forall h, dec (enc h) = h) -> classes_ok bf cl -> I <> 0 -> 1 <= MAXIT -> max <> 0 ->
  forall k, exists results D, session enc dec st cl bf prune I MAXIT GEPS LOWEST WORST max flag k = Some (results, D) /\ length results = S k /\
    Forall (fun r => snd r <= N /\ exists ps lm, fst r = (hyp_of ps, lm, ms ps) /\ deriv ps /\ respects itos cm ps /\ (pbcomplete srcSent (fst (fst r)) = true <-> full n ps)) results /\
    ForallOrdPairs (fun a b => snd a < MAXIT -> pbcomplete srcSent (fst (fst a)) = false -> fst b = start) results.
Proof.
  assert (FS : exists size, finite_space pbhyp succs (pbstart feats) size).
  { apply (C83_progress_is_finite pbhyp (pbdist srcSent) succs (pbstart feats) n). intros a b e F I. eapply pb_progress; eauto. }
  destruct FS as (size & FS). exists (2 + size (pbstart feats)). intros enc dec st cl bf prune I MAXIT GEPS LOWEST WORST max flag DE CL NI MX NM k.
  destruct (C83_search_safe_sound_terminating pbhyp enc dec st cl (pbheur srcSent nbest A hc) (pbdist srcSent) (pbcomplete srcSent) succs start (pbstart feats) (pbs0 feats) n bf prune I MAXIT GEPS LOWEST WORST max flag size)
    with (n := k) as (results & D & E & L & F & O); auto; [eapply pb_measured; eauto|].
  exists results, D. split; [exact E|]. split; [exact L|]. split; [|exact O]. eapply Forall_impl; [|exact F]. cbv beta. intros [[[d lm] sc] it] (R & B). split; [exact B|]. cbn [fst snd] in *.
  assert (K : exists ps, known srcSent ids cm itos stoi UNK unseen nbest A U feats ps (d, lm) sc).
  { destruct R as [R|(e & X & ->)]; [|eapply ext_known; eauto]. exists []. injection R as R1 R2. subst. change (nullHypothesisHypData, _) with (pbstart feats). eapply known_start; eauto. }
  destruct K as (ps & K). assert (Q : sc = ms ps) by (eapply known_score; eauto). assert (K' := K). destruct K' as (s & EQ & _ & _ & (_ & RS) & D'). injection EQ as Q1 Q2. exists ps, lm. rewrite Q, Q1. split; [reflexivity|]. split; [exact D'|]. split; [exact RS|].
  rewrite <- Q1. eapply known_full; eauto.
Qed.
(** such numberings exist *)
Theorem C90_numberings_exist : (forall h, pbdec (pbenc h) = h) /\ states_ok (pbst n).
Proof.
  split; [apply pbdec_enc|]. intros a b Fa Fb. apply pbst_spec.
  - intros j J. destruct (from_known srcSent ids cm itos stoi UNK UNKS unseen nbest A U feats) with (h := a) as (ps & sc & (s & -> & _ & _ & ((W & _) & _) & _)); auto. cbn [pbstate getHypState hs_key fst hyp_of segs] in J. apply getKey_spec in J. destruct J as (x & X & Y). rewrite Forall_forall in W. specialize (W x X). unfold in_seg in Y. lia.
  - intros j J. destruct (from_known srcSent ids cm itos stoi UNK UNKS unseen nbest A U feats) with (h := b) as (ps & sc & (s & -> & _ & _ & ((W & _) & _) & _)); auto. cbn [pbstate getHypState hs_key fst hyp_of segs] in J. apply getKey_spec in J. destruct J as (x & X & Y). rewrite Forall_forall in W. specialize (W x X). unfold in_seg in Y. lia.
Qed.

(** ** C91 with word graphs on, the decoder gives the same results, and its graph is acyclic; every path from its initial state spells the words of a (partial) translation allowed by the
    model, with its score (and the estimate of the rest for a partial one), and ends in a final state if it is complete; every result is spelled, with its score, by such a path.
    Words are numbered by any [num]. *)
Variable num : str -> nat.
Notation text ps := (map num (flat_map (pair_text srcSent itos UNKS) ps)).
Notation g_session enc dec st cl bf prune I MAXIT GEPS LOWEST WORST max flag :=
  (SearchWgModel.g_session pbhyp enc dec st cl (pbheur srcSent nbest A hc) (pbdist srcSent) (pbcomplete srcSent) succs (pbwords srcSent cm itos UNKS num) start bf prune I MAXIT GEPS LOWEST WORST max flag start).
Notation wpath g := (path (arcs g) (arcsPruned g)).
Theorem C91_decoder_word_graph : forall enc dec st cl bf prune I MAXIT GEPS LOWEST WORST max flag,
  (forall h, dec (enc h) = h) -> states_ok st -> classes_ok bf cl -> I <> 0 -> 1 <= MAXIT -> max <> 0 ->
  forall k, exists first rest X, let g := gr X in
    g_session enc dec st cl bf prune I MAXIT GEPS LOWEST WORST max flag k = Some (first :: rest, X) /\
    option_map fst (session enc dec st cl bf prune I MAXIT GEPS LOWEST WORST max flag k) = Some (first :: rest) /\ acyclic (arcs g) /\
    (forall p t, p <> [] -> wpath g 0 p t -> exists ps lm, deriv ps /\ path_words (arcs g) p = text ps /\
       (initScore g + pscore (arcs g) p = ms ps + pbheur srcSent nbest A hc (hyp_of ps, lm))%Z /\
       (full n ps -> In t (finals g) /\ pbheur srcSent nbest A hc (hyp_of ps, lm) = 0%Z) /\
       (In t (finals g) -> full n ps \/ pbcomplete srcSent (fst (fst first)) = false)) /\
    Forall (fun r => exists ps lm, fst r = (hyp_of ps, lm, ms ps) /\ deriv ps /\ (ps = [] \/ exists p t, p <> [] /\ wpath g 0 p t /\ path_words (arcs g) p = text ps /\
       (initScore g + pscore (arcs g) p = ms ps + pbheur srcSent nbest A hc (hyp_of ps, lm))%Z /\ (full n ps -> In t (finals g)))) (first :: rest).
Proof.
  intros enc dec st cl bf prune I MAXIT GEPS LOWEST WORST max flag DE ST CL NI MX NM k.
  assert (KN : forall h e, extends pbhyp succs (pbstart feats) h e -> exists ps, known srcSent ids cm itos stoi UNK unseen nbest A U feats ps h (pbs0 feats + e)) by (intros; eapply ext_known; eauto).
  assert (KS : forall ps h sc, known srcSent ids cm itos stoi UNK unseen nbest A U feats ps h sc -> sc = ms ps) by (intros; eapply known_score; eauto).
  assert (KF : forall ps h sc, known srcSent ids cm itos stoi UNK unseen nbest A U feats ps h sc -> pbcomplete srcSent h = true <-> full n ps) by (intros; eapply known_full; eauto).
  assert (KW : forall ps h sc, known srcSent ids cm itos stoi UNK unseen nbest A U feats ps h sc -> pbwords srcSent cm itos UNKS num h = text ps) by (intros; eapply known_words; eauto).
  assert (KH : forall ps h sc, known srcSent ids cm itos stoi UNK unseen nbest A U feats ps h sc -> full n ps -> pbheur srcSent nbest A hc h = 0%Z) by (intros; eapply heur_full; eauto).
  assert (K0 : known srcSent ids cm itos stoi UNK unseen nbest A U feats [] (pbstart feats) (pbs0 feats)) by (eapply known_start; eauto).
  pose proof (KW _ _ _ K0) as W0. cbn [flat_map map] in W0.
  destruct (C85_word_graph_of_the_search pbhyp enc dec st cl (pbheur srcSent nbest A hc) (pbdist srcSent) (pbcomplete srcSent) succs (pbwords srcSent cm itos UNKS num) start (pbstart feats) (pbs0 feats) n bf prune I MAXIT GEPS LOWEST WORST max flag)
    with (n := k) as (first & rest & X & E & P & _ & AC & S1 & S2); auto; [eapply pb_measured; eauto|eapply pb_appending; eauto|eapply pb_labelled; eauto|].
  exists first, rest, X. cbv zeta. split; [exact E|]. split; [exact P|]. split; [exact AC|]. rewrite W0 in S1, S2. split.
  - intros p t NE Q. destruct (S1 p t NE Q) as (c & e & EX & WD & SC & F1 & F2). destruct (KN _ _ EX) as (ps & K). pose proof (KW _ _ _ K) as WK. pose proof (KF _ _ _ K) as FK. pose proof (KH _ _ _ K) as HK. pose proof (KS _ _ _ K) as SK.
    destruct K as (s & -> & _ & _ & _ & D). exists ps, (lmHist s). split; [exact D|]. split; [rewrite <- WK, WD; reflexivity|]. split; [|split].
    + rewrite SC, SK. f_equal. match goal with |- (if ?b then _ else _) = _ => destruct b eqn:Cc end; [|reflexivity]. symmetry. apply HK, FK. reflexivity.
    + intro F. split; [apply F1, FK, F|apply HK, F].
    + intro I0. destruct (F2 I0) as [Z0|(Z0 & _)]; [left; now apply FK|now right].
  - destruct (C83_progress_is_finite pbhyp (pbdist srcSent) succs (pbstart feats) n) as (size & FS); [intros a b e F Q; eapply pb_progress; eauto|].
    destruct (C83_search_safe_sound_terminating pbhyp enc dec st cl (pbheur srcSent nbest A hc) (pbdist srcSent) (pbcomplete srcSent) succs start (pbstart feats) (pbs0 feats) n bf prune I MAXIT GEPS LOWEST WORST max flag size)
      with (n := k) as (results & D0 & E0 & _ & F0 & _); auto; [eapply pb_measured; eauto|].
    rewrite E0 in P. cbn [option_map fst] in P. injection P as P. subst results.
    rewrite Forall_forall in *. intros [[[d lm] sc] it] IN. specialize (S2 _ IN). specialize (F0 _ IN). cbn [fst snd] in S2, F0.
    assert (NULL : (d, lm, sc) = start -> exists ps lm0, fst (d, lm, sc, it) = (hyp_of ps, lm0, ms ps) /\ deriv ps /\ (ps = [] \/ exists p t, p <> [] /\ wpath (gr X) 0 p t /\ path_words (arcs (gr X)) p = text ps /\
       (initScore (gr X) + pscore (arcs (gr X)) p = ms ps + pbheur srcSent nbest A hc (hyp_of ps, lm0))%Z /\ (full n ps -> In t (finals (gr X))))).
    { intro R. injection R as R1 R2 R3. exists [], lm. cbn [fst]. rewrite R1, R3. split; [|split; [constructor|now left]]. f_equal. apply (KS _ _ _ K0). }
    destruct F0 as ([R|(e & EX & ->)] & _); [auto|]. destruct S2 as [R|[R|(p & t & NE & Q & _ & WD & SC & F1)]]; [auto|auto|].
    destruct (KN _ _ EX) as (ps & K). pose proof (KW _ _ _ K) as WK. pose proof (KF _ _ _ K) as FK. pose proof (KH _ _ _ K) as HK. pose proof (KS _ _ _ K) as SK.
    destruct K as (s & EQ & _ & _ & _ & D). injection EQ as Q1 Q2. exists ps, lm. cbn [fst]. rewrite SK. subst d. split; [reflexivity|]. split; [exact D|]. right. exists p, t. split; [exact NE|]. split; [exact Q|]. split; [rewrite <- WK, WD; reflexivity|].
    split; [|intro F; apply F1, FK, F]. rewrite SC, SK. f_equal. match goal with |- (if ?b then _ else _) = _ => destruct b eqn:Cc end; [|reflexivity]. symmetry. apply HK, FK. reflexivity.
Qed.
End Pb.
(** "a b" with b -> x y as constraint, a -> 5 or 6; one phrase feature worth minus the first word of the phrase; the local heuristic uses the same values *)
Definition pstr (s : string) : str := list_ascii_of_string s.
Definition pids : list nat := [7; 8].
Definition psrc : list str := [pstr "a"; pstr "b"].
Definition pcm : constraints := [((2, 2), [pstr "x"; pstr "y"])].
Definition pitos (i : nat) : str := nth i [pstr "N"; pstr "U"; pstr "x"; pstr "y"; pstr "p"; pstr "q"; pstr "r"] [].
Definition pstoi (s : str) : nat := if list_eq_dec ascii_dec s (pstr "x") then 2 else if list_eq_dec ascii_dec s (pstr "y") then 3 else 1.
Definition pnbest (l r : nat) : list (list nat) := if (l =? 1) && (r =? 1) then [[5]; [6]] else if (l =? 2) && (r =? 2) then [[4]] else [].
Definition pval (t : list nat) : Z := (- Z.of_nat (hd 0%nat t))%Z.
Definition pfeats : list (feature * Z) := [(FPhrase (fun _ t => pval t), 1%Z)].
Definition phc : option ((nat -> nat -> list nat -> Z) * Z * Z) := Some (fun l r t => if (l =? 2) then 0%Z else pval t, 0%Z, (-1000)%Z).
Notation pderiv := (derivation 2 (usable psrc pcm pstoi 1 (fun _ => false) pnbest 2) 1).
Lemma pusable : forall a b phr, a <= b -> usable psrc pcm pstoi 1 (fun _ => false) pnbest 2 a b phr -> (a = 2 /\ b = 2 /\ phr = [2; 3]) \/ (a = 1 /\ b = 1 /\ (phr = [5] \/ phr = [6])).
Proof.
  intros a b phr L [(t & I & ->)|(N & _ & I)].
  - destruct I as [I|[]]. injection I as <- <- <-. left. split; [reflexivity|split; [reflexivity|vm_compute; reflexivity]].
  - rewrite andb_false_r in I. unfold pnbest in I. destruct ((a =? 1) && (b =? 1)) eqn:E1.
    + apply andb_true_iff in E1. destruct E1 as [E1 E2]. apply Nat.eqb_eq in E1, E2. right. split; [auto|]. split; [auto|]. cbn in I. destruct I as [<-|[<-|[]]]; auto.
    + destruct ((a =? 2) && (b =? 2)) eqn:E2; [|destruct I]. apply andb_true_iff in E2. destruct E2 as [E2 E3]. apply Nat.eqb_eq in E2, E3. subst. exfalso. apply (N _ (or_introl eq_refl)). exists 2. unfold in_seg. cbn. lia.
Qed.
Lemma pscore_snoc : forall ps p, (model_score pids pfeats (ps ++ [p]) - model_score pids pfeats ps = pval (snd p))%Z.
Proof.
  intros ps p. unfold model_score, pfeats, feature_score. cbn [weighted sentence_score].
  assert (S : forall todo done, segments_score pids (FPhrase (fun _ t => pval t)) done (todo ++ [p]) = (segments_score pids (FPhrase (fun _ t => pval t)) done todo + pval (snd p))%Z).
  { induction todo as [|q todo IH]; intro done; cbn [app segments_score segment_score]; [lia|]. rewrite IH. lia. }
  rewrite S. lia.
Qed.
Lemma step_bound : forall x y z k, (x - y = z)%Z -> (-6 <= z)%Z -> (y >= -6 * Z.of_nat k)%Z -> (x >= -6 * Z.of_nat (k + 1))%Z.
Proof. intros. lia. Qed.
Lemma pderiv_inv : forall ps, pderiv ps -> (-100 <= model_score pids pfeats ps)%Z /\ Forall (fun p => -6 <= pval (snd p) <= 0)%Z ps.
Proof.
  intros ps D. assert (W : well_segmented 2 (map fst ps) /\ (model_score pids pfeats ps >= - 6 * Z.of_nat (length ps))%Z /\ Forall (fun p => -6 <= pval (snd p) <= 0)%Z ps).
  { induction D as [|ps g a b phr D (W & M & F) (G1 & G2 & G3 & _) L R S Us]; [split; [split; constructor|split; [cbn; lia|constructor]]|].
    assert (P : (-6 <= pval phr <= 0)%Z). { apply pusable in Us; [|lia]. destruct Us as [(_ & _ & ->)|(_ & _ & [->| ->])]; cbn; lia. }
    split; [|split; [|apply Forall_app; auto]].
    - rewrite map_app. split.
      + apply Forall_app. split; [apply W|]. constructor; [|constructor]. cbn. lia.
      + destruct W as [_ W]. assert (NC : forall s, In s (map fst ps) -> disjoint s (a, b)). { intros s I j [J1 J2]. apply (G3 j); [unfold in_seg in *; cbn in J2; lia|]. exists s. auto. }
        revert W NC. generalize (map fst ps). clear. induction l as [|x l IH]; intros W NC; cbn; [repeat constructor|]. inversion W; subst. constructor; [apply Forall_app; split; [auto|constructor; [apply NC; now left|constructor]]|apply IH; [auto|intros s I; apply NC; now right]].
    - pose proof (pscore_snoc ps ((a, b), phr)) as E. cbn [snd] in E. rewrite app_length. cbn [length]. eapply step_bound; [exact E|lia|exact M]. }
  destruct W as (W & M & F). split; [|auto]. pose proof (well_seg_le _ _ W) as L.
  assert (LL : length ps <= 2).
  { rewrite <- (map_length fst). etransitivity; [|exact L]. unfold srcWordsCovered. assert (Q : forall (l : list seg) acc, acc + length l <= fold_left (fun acc s => acc + (usub (snd s) (fst s) + 1)) l acc).
    { induction l as [|x l IH]; intro acc; cbn [length fold_left]; [lia|]. etransitivity; [|apply IH]. set (u := usub _ _). lia. }
    apply (Q (map fst ps) 0). }
  lia.
Qed.
Definition pbest : list (seg * list nat) := [((2, 2), [2; 3]); ((1, 1), [5])].
Lemma pbest_ok : pderiv pbest /\ full 2 pbest.
Proof.
  unfold pbest. split.
  { change [((2, 2), [2; 3]); ((1, 1), [5])] with (([] ++ [((2, 2), [2; 3])]) ++ [((1, 1), [5])]). apply der_ext with (g := (1, 1)); cbn [fst snd app map]; try lia.
    - change [((2, 2), [2; 3])] with ([] ++ [((2, 2), [2; 3])]). apply der_ext with (g := (1, 2)); cbn [fst snd app map]; try lia; [constructor| |left; exists [pstr "x"; pstr "y"]; split; [now left|vm_compute; reflexivity]].
      unfold is_gap. cbn. repeat split; try lia. intros j J (s & [] & _).
    - unfold is_gap. cbn. repeat split; try lia; [intros j J (s & [<-|[]] & Y); unfold in_seg in *; cbn in *; lia|]. right. exists (2, 2). split; [now left|unfold in_seg; cbn; lia].
    - right. split; [|split; [lia|vm_compute; auto]]. intros c [<-|[]] (j & J1 & J2). unfold in_seg in *. cbn in *. lia. }
  intros j J; assert (j = 1 \/ j = 2) as [-> | ->] by lia; [exists (1, 1)|exists (2, 2)]; (split; [cbn; auto|unfold in_seg; cbn; lia]).
Qed.
Example C90_nonvacuous : exists ps, pderiv ps /\ full 2 ps /\ In ((1, 1), [5]) ps /\ In ((2, 2), [2; 3]) ps /\
  good_constraints 2 pcm /\ (forall c t, In c pcm -> In t (snd c) -> pitos (pstoi t) = t) /\ (forall c, In c pcm -> ~ In (pstr "U") (snd c)) /\ no_lm pfeats /\
  (forall ps, pderiv ps -> (-100 <= model_score pids pfeats ps)%Z) /\
  (forall ps a b phr, pderiv ps -> pderiv (ps ++ [((a, b), phr)]) -> (model_score pids pfeats (ps ++ [((a, b), phr)]) - model_score pids pfeats ps <= bound pnbest 2 phc a b)%Z).
Proof.
  exists pbest. split; [apply pbest_ok|]. split; [apply pbest_ok|].
  split; [cbn; auto|]. split; [cbn; auto|]. split; [split; [split; repeat constructor; cbn; lia|repeat constructor; discriminate]|].
  split; [intros c t [<-|[]] [<-|[<-|[]]]; vm_compute; reflexivity|]. split; [intros c [<-|[]] [Q|[Q|[]]]; discriminate Q|]. split; [repeat constructor|].
  split; [intros ps D; apply pderiv_inv, D|].
  intros ps a b phr D D'. rewrite pscore_snoc. cbn [snd]. inversion D' as [Q|ps' g a' b' phr' D1 G L R S Us Q]; [destruct ps; discriminate|]. apply app_inj_tail in Q. destruct Q as [_ Q]. injection Q as -> -> ->. apply pusable in Us; [|lia].
  destruct Us as [(-> & -> & ->)|(-> & -> & [->| ->])]; vm_compute; discriminate.
Qed.
(** all hypotheses together: in both search orders the decoder translates "a b" with a score of at least that of "q x y" *)
Example C90_instance : exists N, forall bf, exists ps lm it D,
  SearchModel.translate pbhyp pbenc pbdec (pbst 2) (fun h => (pbdist psrc h, 0)) (pbheur psrc pnbest 2 phc) (pbdist psrc) (pbcomplete psrc)
    (pbsuccs psrc pids pcm pitos pstoi 1 (pstr "U") (fun _ => false) pnbest 2 1 pfeats) (pbstart pfeats, pbs0 pfeats) bf (negb bf) 1 (S N) 0 (-100) (-100) N false (pbstart pfeats, pbs0 pfeats) = Some ((hyp_of ps, lm, model_score pids pfeats ps), it, D) /\
  full 2 ps /\ respects pitos pcm ps /\ (-7 <= model_score pids pfeats ps)%Z.
Proof.
  destruct C90_nonvacuous as (q & D1 & F1 & I1 & I2 & GC & VO & NU & NL & LOW & GB).
  destruct (C90_decoder_optimal psrc pids pcm pitos pstoi 1 (pstr "U") (fun _ => false) pnbest 2 1 pfeats eq_refl ltac:(discriminate) GC VO NU (or_intror NL) phc) as (N & T). exists N. intro bf.
  destruct (T pbenc pbdec (pbst 2) (fun h => (pbdist psrc h, 0)) bf (negb bf) (S N) 0%Z (-100)%Z (-100)%Z N false) as (ps & lm & it & D & E & D2 & F2 & R & M); auto.
  - apply pbdec_enc.
  - now apply (C90_numberings_exist psrc pids pcm pitos pstoi 1 (pstr "U") (fun _ => false) pnbest 2 1 pfeats).
  - intro Q. split; [now destruct bf|]. intros. now apply LOW.
  - eauto.
  - exists ps, lm, it, D. split; [exact E|]. split; [exact F2|]. split; [exact R|].
    etransitivity; [|apply (M _ (proj1 pbest_ok) (proj2 pbest_ok))]. vm_compute. discriminate.
Qed.
Print Assumptions C90_decoder_optimal.
Print Assumptions C90_decoder_safe.
Print Assumptions C90_numberings_exist.
Print Assumptions C91_decoder_word_graph.
