(** The decoder's model satisfies what the search requires. *)
From Coq Require Import ZArith Arith List Bool Lia.
From Verif Require Import DecSpec DecModel DecGapProofs DecHypProofs DecProofs PropertiesDec FeatSpec FeatModel FeatProofs FeatRecProofs PropertiesFeat HeurSpec HeurModel HeurProofs HeurGapProofs PropertiesHeur SearchSpec SearchWgSpec PbSpec PbModel.
Import ListNotations.
Open Scope nat_scope.
Section Pb.
Variable srcSent : list str.
Variable ids : list nat.
Variables (cm : constraints) (itos : nat -> str) (stoi : str -> nat) (UNK : nat) (UNKS : str) (unseen : str -> bool).
Variable nbest : nat -> nat -> list (list nat).
Variables A U : nat.
Variable feats : list (feature * Z).
Hypothesis ids_len : length ids = length srcSent.
Hypothesis nonempty : srcSent <> [].
Hypothesis C : good_constraints (length srcSent) cm.
Hypothesis V : forall c t, In c cm -> In t (snd c) -> itos (stoi t) = t.
Hypothesis NU : forall c, In c cm -> ~ In UNKS (snd c).
Hypothesis LM : one_lm feats \/ no_lm feats.
Notation n := (length srcSent).
Notation use := (usable srcSent cm stoi UNK unseen nbest A).
Notation succs := (pbsuccs srcSent ids cm itos stoi UNK UNKS unseen nbest A U feats).
Notation reach := (reachable srcSent cm itos stoi UNK UNKS unseen nbest A U).
Notation deriv := (derivation n use U).
Notation good := (DecProofs.good srcSent cm itos).
Notation start := (pbstart feats).
Notation s0 := (pbs0 feats).
Notation exts := (extends pbhyp succs start).
Lemma ids_ne : ids <> [].
Proof. intros ->. destruct srcSent; [congruence|discriminate ids_len]. Qed.
(** what is known of a hypothesis found by the search *)
Definition known (ps : pairs) (h : pbhyp) (sc : Z) : Prop := exists s, h = (hyp_of ps, lmHist s) /\ scored ids feats ps s /\ score s = sc /\ good ps /\ deriv ps.
Lemma gap_open : forall (ps : pairs) g a, is_gap n (covered (map fst ps)) g -> fst g <= a <= snd g -> all_covered n (map fst ps) = false.
Proof.
  intros ps g a (G1 & G2 & G3 & _) L. destruct (all_covered n (map fst ps)) eqn:E; auto. exfalso. apply (G3 a); [unfold in_seg; lia|]. apply (proj1 (all_covered_iff _ _) E). lia.
Qed.
Lemma good_ext : forall ps g a b phr, good ps -> is_gap n (covered (map fst ps)) g -> fst g <= a <= b -> b <= snd g -> use a b phr -> good (ps ++ [((a, b), phr)]).
Proof.
  intros ps g a b phr G (G1 & G2 & G3 & _) L R Us. apply good_snoc; auto; try lia.
  - intros j J. apply G3. unfold in_seg. lia.
  - intros c Cc O. apply (usable_respects srcSent cm itos stoi UNK unseen nbest A C V a b phr c); auto. lia.
Qed.
Lemma succs_spec : forall ps h sc, known ps h sc -> forall c e, In (c, e) (succs h) <-> exists g a b phr s, is_gap n (covered (map fst ps)) g /\ fst g <= a <= b /\ b <= snd g /\ a - fst g <= U /\ use a b phr /\
  incrScore ids feats (hyp_of ps) (hyp_of (ps ++ [((a, b), phr)])) {| score := 0; lmHist := snd h |} = Some s /\ c = (hyp_of (ps ++ [((a, b), phr)]), lmHist (fst s)) /\ e = score (fst s).
Proof.
  intros ps h sc (s & -> & S & _ & G & D) c e. unfold pbsuccs. cbn [fst snd]. destruct (expand_spec srcSent cm itos stoi UNK UNKS unseen nbest A U C V NU ps G) as (L & E & M). rewrite E. rewrite in_flat_map. split.
  - intros (d & I & X). apply M in I. destruct I as (g & a & b & phr & G1 & G2 & G3 & G4 & G5 & ->). destruct (incrScore ids feats (hyp_of ps) _ _) as [[s1 cs]|] eqn:Q; [|destruct X]. destruct X as [X|[]]. inversion X; subst.
    exists g, a, b, phr, (s1, cs). repeat split; auto; try lia; try apply G1.
  - intros (g & a & b & phr & s1 & G1 & G2 & G3 & G4 & G5 & Q & -> & ->). exists (hyp_of (ps ++ [((a, b), phr)])). split; [apply M; exists g, a, b, phr; auto 10|]. rewrite Q. destruct s1. now left.
Qed.
Lemma known_ext : forall ps h sc g a b phr, known ps h sc -> is_gap n (covered (map fst ps)) g -> fst g <= a <= b -> b <= snd g -> a - fst g <= U -> use a b phr ->
  exists s, incrScore ids feats (hyp_of ps) (hyp_of (ps ++ [((a, b), phr)])) {| score := 0; lmHist := snd h |} = Some s /\ known (ps ++ [((a, b), phr)]) (hyp_of (ps ++ [((a, b), phr)]), lmHist (fst s)) (sc + score (fst s)).
Proof.
  intros ps h sc g a b phr (s & -> & S & <- & G & D) G1 G2 G3 G4 G5. pose proof (good_ext ps g a b phr G G1 G2 G3 G5) as G'. pose proof (gap_open ps g a G1 ltac:(lia)) as NC. rewrite <- ids_len in NC. destruct G' as (W & R). rewrite <- ids_len in W.
  cbn [snd]. pose proof (incr_ok ids feats {| score := 0; lmHist := lmHist s |} ps [((a, b), phr)] W NC) as E0. pose proof (incr_ok ids feats s ps [((a, b), phr)] W NC) as E1. rewrite E0. eexists. split; [reflexivity|]. cbn [fst score lmHist].
  eexists. split; [|split; [eapply scored_ext; [exact S|exact NC|discriminate|exact W|exact E1]|]]; [reflexivity|]. split; [cbn [score]; lia|]. split; [split; [now rewrite <- ids_len|auto]|]. econstructor; eauto.
Qed.
Lemma known_start : known [] start s0.
Proof. eexists. split; [reflexivity|]. split; [constructor|]. split; [reflexivity|]. split; [apply good_null|constructor]. Qed.
Lemma known_step : forall ps h sc c e, known ps h sc -> In (c, e) (succs h) -> exists p, known (ps ++ [p]) c (sc + e).
Proof.
  intros ps h sc c e K I. apply (succs_spec ps h sc K) in I. destruct I as (g & a & b & phr & s & G1 & G2 & G3 & G4 & G5 & Q & -> & ->).
  destruct (known_ext ps h sc g a b phr K G1 G2 G3 G4 G5) as (s' & Q' & K'). rewrite Q in Q'. inversion Q'; subst. eauto.
Qed.
Lemma ext_known : forall h e, exts h e -> exists ps, known ps h (s0 + e).
Proof.
  intros h e X. induction X as [|b e c f X (ps & K) I]; [exists []; rewrite Z.add_0_r; apply known_start|]. destruct (known_step ps b _ c f K I) as (p & K'). exists (ps ++ [p]). now rewrite Z.add_assoc.
Qed.
Lemma known_score : forall ps h sc, known ps h sc -> sc = model_score ids feats ps.
Proof. intros ps h sc (s & _ & S & <- & _). apply (C86_score_is_model_score ids feats ids_ne ps s S). Qed.
Lemma deriv_ext : forall ps, deriv ps -> exists h e, exts h e /\ known ps h (s0 + e).
Proof.
  intros ps D. induction D as [|ps g a b phr D (h & e & X & K) G1 G2 G3 G4 G5]; [exists start, 0%Z; split; [constructor|rewrite Z.add_0_r; apply known_start]|].
  destruct (known_ext ps h _ g a b phr K G1 G2 G3 G4 G5) as (s & Q & K'). do 2 eexists. split; [econstructor; [exact X|apply (succs_spec ps h _ K); exists g, a, b, phr, s; repeat split; auto; try lia; apply G1]|]. rewrite Z.add_assoc. exact K'.
Qed.
Lemma known_reach : forall ps h sc, known ps h sc -> reach (hyp_of ps).
Proof.
  intros ps h sc (s & _ & _ & _ & _ & D). clear s h sc. induction D as [|ps g a b phr D IH G1 G2 G3 G4 G5]; [constructor|].
  assert (G : good ps). { destruct (deriv_ext ps D) as (h & e & _ & (s & _ & _ & _ & G & _)). exact G. }
  destruct (expand_spec srcSent cm itos stoi UNK UNKS unseen nbest A U C V NU ps G) as (L & E & M). eapply reach_exp; [exact IH|exact E|]. apply M. exists g, a, b, phr. auto 10.
Qed.
Lemma known_full : forall ps h sc, known ps h sc -> pbcomplete srcSent h = true <-> full n ps.
Proof. intros ps h sc (s & -> & _ & _ & (W & _) & _). unfold pbcomplete, full. cbn [fst]. now apply complete_iff. Qed.
Notation from := (from_start pbhyp succs start).
Lemma from_known : forall h, from h -> exists ps sc, known ps h sc.
Proof. intros h (e & X). destruct (ext_known h e X) as (ps & K). eauto. Qed.
Lemma known_dist : forall ps h sc, known ps h sc -> pbdist srcSent h = srcWordsCovered (map fst ps) /\ pbdist srcSent h <= n.
Proof.
  intros ps h sc K. pose proof K as (s & -> & _ & _ & (W & _) & _). unfold pbdist, distToNullHyp, numberOfUncoveredSrcWords. cbn [fst hyp_of segs nullHypothesisHypData]. pose proof (well_seg_le _ _ W).
  change (srcWordsCovered []) with 0. rewrite (usub_ok n 0), (usub_ok n (srcWordsCovered (map fst ps))) by lia. rewrite usub_ok; lia.
Qed.
Lemma pb_progress : forall a b e, from a -> In (b, e) (succs a) -> pbdist srcSent a < pbdist srcSent b /\ pbdist srcSent b <= n.
Proof.
  intros a b e Fa I. destruct (from_known a Fa) as (ps & sc & K). pose proof (proj1 (succs_spec ps a sc K b e) I) as (g & x & y & phr & s & G1 & G2 & G3 & G4 & G5 & Q & EB & ->).
  destruct (known_ext ps a sc g x y phr K G1 G2 G3 G4 G5) as (s' & Q' & K'). rewrite Q in Q'. inversion Q'; subst s'. rewrite <- EB in K'. destruct (known_dist _ _ _ K) as (-> & L1). destruct (known_dist _ _ _ K') as (-> & L2). split; [|auto].
  rewrite map_app. unfold srcWordsCovered. rewrite fold_left_app. cbn [map fold_left fst snd]. apply Nat.lt_add_pos_r. lia.
Qed.
(** heuristics *)
Variable hc : option ((nat -> nat -> list nat -> Z) * Z * Z).
Notation heur := (pbheur srcSent nbest A hc).
Lemma covers_same : forall ps ps' : pairs, (forall j, covered (map fst ps) j <-> covered (map fst ps') j) -> extract_gaps n (getKey (map fst ps)) = extract_gaps n (getKey (map fst ps')).
Proof.
  intros ps ps' E. assert (K : forall j, getKey (map fst ps) j = getKey (map fst ps') j).
  { intro j. destruct (getKey (map fst ps) j) eqn:X, (getKey (map fst ps') j) eqn:Y; auto; [apply getKey_spec, E, getKey_spec in X|apply getKey_spec, E, getKey_spec in Y]; congruence. }
  unfold extract_gaps. assert (G : forall js c f gs, gaps_loop js (getKey (map fst ps)) c f gs = gaps_loop js (getKey (map fst ps')) c f gs).
  { induction js as [|j js IH]; intros c f gs; cbn [gaps_loop]; [reflexivity|]. rewrite K. destruct c, (getKey (map fst ps') j); cbn; apply IH. }
  now rewrite G.
Qed.
Lemma heur_same : forall ps ps' h h' sc sc', known ps h sc -> known ps' h' sc' -> (forall j, covered (map fst ps) j <-> covered (map fst ps') j) -> heur h = heur h'.
Proof.
  intros ps ps' h h' sc sc' (s & -> & _) (s' & -> & _) E. unfold pbheur, getLocalTmHeurScore. cbn [fst hyp_of segs]. now rewrite (covers_same ps ps' E).
Qed.
Lemma heur_full : forall ps h sc, known ps h sc -> full n ps -> heur h = 0%Z.
Proof.
  intros ps h sc (s & -> & _) F. unfold pbheur, getLocalTmHeurScore. cbn [fst hyp_of segs]. destruct hc as [[[x y] z]|]; [|reflexivity]. destruct (initHeuristicLocalt _ _ _ _ _ _) as [T|]; [|reflexivity].
  assert (N : extract_gaps n (getKey (map fst ps)) = []); [|now rewrite N]. destruct (extract_gaps n (getKey (map fst ps))) as [|g gs] eqn:E; auto. exfalso.
  destruct (gaps_facts n (map fst ps)) as (_ & MG). destruct (proj1 (MG g) ltac:(rewrite E; now left)) as (G1 & G2 & G3 & _). apply (G3 (fst g)); [unfold in_seg; lia|apply F; lia].
Qed.
Lemma full_stuck : forall ps h sc, known ps h sc -> full n ps -> succs h = [].
Proof.
  intros ps h sc K F. destruct (succs h) as [|[c e] l] eqn:E; auto. exfalso. assert (I : In (c, e) (succs h)) by (rewrite E; now left). apply (succs_spec ps h sc K) in I.
  destruct I as (g & a & b & phr & s & (G1 & G2 & G3 & _) & _). apply (G3 (fst g)); [unfold in_seg; lia|apply F; lia].
Qed.
Lemma dist_count : forall ps h sc, known ps h sc -> pbdist srcSent h = length (filter (covb (map fst ps)) (seq 1 n)).
Proof. intros ps h sc K. destruct (known_dist ps h sc K) as (-> & _). destruct K as (s & _ & _ & _ & (W & _) & _). apply well_seg_count. exact W. Qed.
Theorem pb_measured : measured pbhyp succs (pbcomplete srcSent) start (pbdist srcSent) heur n.
Proof.
  intros h Fh. destruct (from_known h Fh) as (ps & sc & K). split; [apply (known_dist ps h sc K)|]. split.
  - rewrite (known_full ps h sc K), (dist_count ps h sc K). split.
    + intro F. rewrite <- (seq_length n 1) at 2. f_equal. assert (Q : forall p (l : list nat), (forall x, In x l -> p x = true) -> filter p l = l) by (clear; induction l as [|x l IH]; intro H; [reflexivity|]; cbn [filter]; rewrite H by (now left); f_equal; apply IH; intros y Y; apply H; now right).
      apply Q. intros x X. apply in_seq in X. apply covb_spec, F. lia.
    + intros E j J. apply covb_spec. eapply filter_all with (l := seq 1 n); [now rewrite seq_length|apply in_seq; lia].
  - intro Cm. apply (known_full ps h sc K) in Cm. split; [eapply full_stuck; eauto|eapply heur_full; eauto].
Qed.
Definition codes (st : pbhyp -> nat) : Prop := forall a b, from a -> from b -> (st a = st b <-> hypstate_eq (pbstate a) (pbstate b)).
Lemma pb_futures : forall st, codes st -> forall a b, from a -> from b -> st a = st b -> pbcomplete srcSent a = pbcomplete srcSent b /\ heur a = heur b /\ pbdist srcSent a = pbdist srcSent b /\
    forall c e, In (c, e) (succs a) -> exists d, In (d, e) (succs b) /\ st c = st d /\ exists ps qs p sa sb sc sd, known ps a sa /\ known qs b sb /\ known (ps ++ [p]) c sc /\ known (qs ++ [p]) d sd.
Proof.
  intros st ST a b Fa Fb E. apply (ST a b Fa Fb) in E. destruct (from_known a Fa) as (ps & sa & Ka), (from_known b Fb) as (qs & sb & Kb).
  pose proof Ka as (s & Ea & Sa & _ & (Wa & _) & _). pose proof Kb as (s' & Eb & Sb & _ & (Wb & _) & _).
  assert (CV : forall j, covered (map fst ps) j <-> covered (map fst qs) j). { intro j. rewrite <- !getKey_spec. destruct E as (_ & _ & _ & E). specialize (E j). rewrite Ea, Eb in E. cbn [pbstate getHypState hs_key fst hyp_of segs] in E. rewrite E. tauto. }
  split; [|split; [|split]].
  - pose proof (known_full _ _ _ Ka) as Xa. pose proof (known_full _ _ _ Kb) as Xb. assert (F : full n ps <-> full n qs) by (unfold full; split; intros F j J; apply CV, F, J).
    destruct (pbcomplete srcSent a), (pbcomplete srcSent b); auto; [destruct Xa as [Xa _]; specialize (Xa eq_refl); apply F, Xb in Xa; congruence|destruct Xb as [Xb _]; specialize (Xb eq_refl); apply F, Xa in Xb; congruence].
  - eapply heur_same; eauto.
  - rewrite (dist_count _ _ _ Ka), (dist_count _ _ _ Kb). f_equal. apply filter_ext. apply covb_ext. exact CV.
  - intros c e I. pose proof (proj1 (succs_spec ps a sa Ka c e) I) as (g & x & y & phr & r & G1 & G2 & G3 & G4 & G5 & Q & -> & ->).
    assert (G1' : is_gap n (covered (map fst qs)) g). { destruct G1 as (P1 & P2 & P3 & P4 & P5). unfold is_gap. split; [auto|]. split; [auto|]. split; [intros j J X; apply (P3 j J), CV, X|]. rewrite <- !CV. auto. }
    destruct (known_ext ps a sa g x y phr Ka G1 G2 G3 G4 G5) as (r1 & Q1 & K1). rewrite Q in Q1. inversion Q1; subst r1. destruct (known_ext qs b sb g x y phr Kb G1' G2 G3 G4 G5) as (r2 & Q2 & K2).
    assert (IB : In ((hyp_of (qs ++ [((x, y), phr)]), lmHist (fst r2)), score (fst r2)) (succs b)) by (apply (succs_spec qs b sb Kb); exists g, x, y, phr, r2; repeat split; auto; try lia; apply G1').
    pose proof K1 as (t1 & _ & _ & _ & (W1 & _) & _). pose proof (gap_open ps g x G1 ltac:(lia)) as NC. rewrite <- ids_len in W1, NC.
    destruct (C87_same_state_same_future ids feats ids_ne LM ps qs s s' [((x, y), phr)] Sa Sb) as (W2 & NC2 & u & u' & cs & E1 & E2 & DS & HS); auto.
    { subst a b. exact E. }
    assert (R1 : lmHist (fst r) = lmHist u /\ score (fst r) = (score u - score s)%Z).
    { rewrite (incr_ok ids feats s ps _ W1 NC) in E1. subst a. cbn [snd] in Q. rewrite (incr_ok ids feats _ ps _ W1 NC) in Q. inversion E1; inversion Q; subst. cbn [fst lmHist score]. split; [reflexivity|lia]. }
    assert (R2 : lmHist (fst r2) = lmHist u' /\ score (fst r2) = (score u' - score s')%Z).
    { rewrite (incr_ok ids feats s' qs _ W2 NC2) in E2. subst b. cbn [snd] in Q2. rewrite (incr_ok ids feats _ qs _ W2 NC2) in Q2. inversion E2; inversion Q2; subst. cbn [fst lmHist score]. split; [reflexivity|lia]. }
    exists (hyp_of (qs ++ [((x, y), phr)]), lmHist (fst r2)). split; [replace (score (fst r)) with (score (fst r2)) by lia; exact IB|]. split; [|exists ps, qs, ((x, y), phr), sa, sb; do 2 eexists; split; [exact Ka|split; [exact Kb|split; [exact K1|exact K2]]]]. apply ST.
    + destruct Fa as (ea & Xa). exists (ea + score (fst r))%Z. econstructor; [exact Xa|exact I].
    + destruct Fb as (eb & Xb). exists (eb + score (fst r2))%Z. econstructor; [exact Xb|exact IB].
    + unfold pbstate. cbn [fst snd]. destruct R1 as [-> _], R2 as [-> _]. exact HS.
Qed.
Theorem pb_sound : forall st, codes st -> sound_states pbhyp succs (pbcomplete srcSent) start st heur (pbdist srcSent).
Proof.
  intros st ST a b Fa Fb E. destruct (pb_futures st ST a b Fa Fb E) as (X1 & X2 & X3 & X4). repeat split; auto. intros c e I. destruct (X4 c e I) as (d & D1 & D2 & _). eauto.
Qed.
(** words *)
Variable num : str -> nat.
Notation words := (pbwords srcSent cm itos UNKS num).
Notation text := (fun ps => map num (flat_map (pair_text srcSent itos UNKS) ps)).
Lemma known_words : forall ps h sc, known ps h sc -> words h = text ps.
Proof.
  intros ps h sc (s & -> & _ & _ & (W & RS) & _). unfold pbwords. cbn [fst]. pose proof (text_spec srcSent cm itos UNKS C ps (proj1 W) RS) as T. rewrite T. reflexivity.
Qed.
Theorem pb_appending : appending pbhyp succs words start (pbdist srcSent).
Proof.
  intros a b e Fa I. split; [|eapply pb_progress; eauto]. destruct (from_known a Fa) as (ps & sc & K). destruct (known_step _ _ _ _ _ K I) as (p & K'). rewrite (known_words _ _ _ K), (known_words _ _ _ K'). rewrite flat_map_app, map_app. eauto.
Qed.
Theorem pb_labelled : forall st, codes st -> labelled_states pbhyp succs words start st heur (pbdist srcSent).
Proof.
  intros st ST a b Fa Fb E. destruct (pb_futures st ST a b Fa Fb E) as (_ & X2 & X3 & X4). split; [auto|]. split; [auto|]. intros c e I. destruct (X4 c e I) as (d & D1 & D2 & ps & qs & p & sa & sb & sc & sd & K1 & K2 & K3 & K4).
  exists d. split; [auto|]. split; [auto|]. intros x X. rewrite (known_words _ _ _ K1), (known_words _ _ _ K3) in X. rewrite (known_words _ _ _ K2), (known_words _ _ _ K4). rewrite flat_map_app, map_app in *. apply app_inv_head in X. now rewrite X.
Qed.
(** a complete translation, if any, has a best one: the extensions are finitely many *)
Lemma ext_head : forall a c e, extends pbhyp succs a c e -> (c = a /\ e = 0%Z) \/ exists b f g, In (b, f) (succs a) /\ extends pbhyp succs b c g /\ e = (f + g)%Z.
Proof.
  intros a c e X. induction X as [|b e c f X IH I]; [auto|]. right. destruct IH as [(-> & ->)|(b' & f' & g & I' & X' & ->)].
  - exists c, f, 0%Z. split; [auto|]. split; [constructor|lia].
  - exists b', f', (g + f)%Z. split; [auto|]. split; [econstructor; eauto|lia].
Qed.
Lemma ext_cons : forall a b f c g, In (b, f) (succs a) -> extends pbhyp succs b c g -> extends pbhyp succs a c (f + g).
Proof.
  intros a b f c g I X. induction X as [|b' e c f' X IH I']; [rewrite Z.add_0_r, <- (Z.add_0_l f); econstructor; [constructor|auto]|]. rewrite Z.add_assoc. econstructor; eauto.
Qed.
Lemma in_sum : forall (X : Type) (g : X -> nat) l x, In x l -> g x <= list_sum (map g l).
Proof. intros X g. induction l as [|y l IH]; intros x I; [destruct I|]. cbn. destruct I as [<-|I]; [lia|]. specialize (IH x I). unfold list_sum in IH. lia. Qed.
Lemma finitely_many : forall size, finite_space pbhyp succs start size -> forall k a, size a <= k -> from a -> exists L, forall c e, extends pbhyp succs a c e <-> In (c, e) L.
Proof.
  intros size FS. induction k as [|k IH]; intros a L Fa; [rewrite (FS a Fa) in L; lia|].
  assert (SUB : forall b f, In (b, f) (succs a) -> size b <= k /\ from b).
  { intros b f I. split; [|destruct Fa as (e & X); exists (e + f)%Z; econstructor; eauto]. rewrite (FS a Fa) in L. pose proof (in_sum _ (fun x => size (fst x)) (succs a) (b, f) I) as Q. cbn [fst] in Q. apply le_S_n in L. etransitivity; [exact Q|exact L]. }
  assert (LIST : forall l, (forall x, In x l -> In x (succs a)) -> exists L, forall c e, (exists b f g, In (b, f) l /\ extends pbhyp succs b c g /\ e = (f + g)%Z) <-> In (c, e) L).
  { induction l as [|[b f] l IHl]; intro IN; [exists []; intros c e; split; [intros (? & ? & ? & [] & _)|intros []]|].
    destruct (SUB b f (IN _ (or_introl eq_refl))) as (S1 & S2). destruct (IH b S1 S2) as (L1 & M1). destruct IHl as (L2 & M2); [intros x X; apply IN; now right|].
    exists (map (fun x => (fst x, (f + snd x)%Z)) L1 ++ L2). intros c e. rewrite in_app_iff, in_map_iff, <- M2. split.
    - intros (b' & f' & g & [I|I] & X & ->); [inversion I; subst; left; exists (c, g); split; [reflexivity|now apply M1]|right; eauto 6].
    - intros [((c' & g) & E & I)|(b' & f' & g & I & X & ->)]; [inversion E; subst; exists b, f, g; split; [now left|]; split; [now apply M1|reflexivity]|exists b', f', g; split; [now right|auto]]. }
  destruct (LIST (succs a)) as (L1 & M1); [auto|]. exists ((a, 0%Z) :: L1). intros c e. split.
  - intro X. apply ext_head in X. destruct X as [(-> & ->)|X]; [now left|right; now apply M1].
  - intros [E|I]; [inversion E; constructor|]. apply M1 in I. destruct I as (b & f & g & I & X & ->). eapply ext_cons; eauto.
Qed.
Lemma best_exists : forall size, finite_space pbhyp succs start size -> (exists c e, exts c e /\ pbcomplete srcSent c = true) -> exists s, best_score pbhyp succs (pbcomplete srcSent) start s0 s.
Proof.
  intros size FS (c & e & X & CC). destruct (finitely_many size FS (size start) start) as (L & M); [lia|exists 0%Z; constructor|].
  assert (MX : forall l : list (pbhyp * Z), (exists c e, In (c, e) l /\ pbcomplete srcSent c = true) -> exists c e, In (c, e) l /\ pbcomplete srcSent c = true /\ forall c' e', In (c', e') l -> pbcomplete srcSent c' = true -> (e' <= e)%Z).
  { clear. induction l as [|[x y] l IH]; intros (c & e & I & C); [destruct I|].
    destruct (existsb (fun z => pbcomplete srcSent (fst z)) l) eqn:EX.
    - apply existsb_exists in EX. destruct EX as ([c1 e1] & I1 & C1). destruct IH as (c2 & e2 & I2 & C2 & M2); [eauto|]. destruct (pbcomplete srcSent x && (e2 <=? y)%Z) eqn:B.
      + apply andb_true_iff in B. destruct B as [B1 B2]. apply Z.leb_le in B2. exists x, y. split; [now left|]. split; [auto|]. intros c' e' [I'|I'] C'; [inversion I'; lia|]. specialize (M2 _ _ I' C'). lia.
      + exists c2, e2. split; [now right|]. split; [auto|]. intros c' e' [I'|I'] C'; [|eauto]. inversion I'; subst. rewrite C' in B. cbn in B. apply Z.leb_gt in B. lia.
    - assert (N : forall c' e', In (c', e') l -> pbcomplete srcSent c' = true -> False). { intros c' e' I' C'. assert (existsb (fun z => pbcomplete srcSent (fst z)) l = true); [apply existsb_exists; eauto|congruence]. }
      destruct I as [I|I]; [|exfalso; eauto]. inversion I; subst. exists c, e. split; [now left|]. split; [auto|]. intros c' e' [I'|I'] C'; [inversion I'; lia|exfalso; eauto]. }
  destruct (MX L) as (cb & eb & Ib & Cb & Mb); [exists c, e; split; [now apply M|auto]|]. exists (s0 + eb)%Z. split; [exists cb, eb; split; [now apply M|auto]|]. intros c' e' X' C'. apply M in X'. specialize (Mb _ _ X' C'). lia.
Qed.
(** admissible heuristics *)
Definition bound (l r : nat) : Z := match hc with None => 0%Z | Some (sc, unk, NEG) => segment_value A nbest sc unk NEG l r end.
Definition gains_bounded : Prop := forall ps a b phr, deriv ps -> deriv (ps ++ [((a, b), phr)]) -> (model_score ids feats (ps ++ [((a, b), phr)]) - model_score ids feats ps <= bound a b)%Z.
Lemma ext_from_known : forall a c e ps sc, known ps a sc -> extends pbhyp succs a c e -> gains_bounded -> exists more, known (ps ++ more) c (sc + e) /\ (e <= total bound (map fst more))%Z.
Proof.
  intros a c e ps sc K X GB. induction X as [|b e c f X (more & Kb & L) I].
  - exists []. rewrite app_nil_r, Z.add_0_r. split; [auto|unfold total; cbn; lia].
  - pose proof (proj1 (succs_spec _ _ _ Kb c f) I) as (g & x & y & phr & r & G1 & G2 & G3 & G4 & G5 & Q & -> & ->). destruct (known_ext _ b _ g x y phr Kb G1 G2 G3 G4 G5) as (r1 & Q1 & K1). rewrite Q in Q1. inversion Q1; subst r1.
    exists (more ++ [((x, y), phr)]). rewrite app_assoc, Z.add_assoc. split; [exact K1|]. rewrite map_app, total_app. cbn [map]. unfold total at 2. cbn [map fold_right fst snd].
    pose proof (known_score _ _ _ Kb) as M1. pose proof (known_score _ _ _ K1) as M2. pose proof Kb as (_ & _ & _ & _ & _ & D1). pose proof K1 as (_ & _ & _ & _ & _ & D2). specialize (GB _ _ _ _ D1 D2). rewrite <- M2, <- M1 in GB. rewrite Z.add_0_r. apply Z.add_le_mono; [exact L|]. clear - GB. lia.
Qed.
Theorem pb_admissible : gains_bounded -> admissible pbhyp succs (pbcomplete srcSent) start heur.
Proof.
  intros GB a c e Fa X Cc. destruct (from_known a Fa) as (ps & sc & K). destruct (ext_from_known a c e ps sc K X GB) as (more & Kc & L).
  apply (known_full _ _ _ Kc) in Cc. pose proof Kc as (_ & _ & _ & _ & (W & _) & _). pose proof K as (s & Ea & _ & _ & (Wa & _) & _). unfold bound in L. unfold pbheur. destruct hc as [[[h1 h2] h3]|].
  - destruct (C88_estimate_is_best_completion n A nbest h1 h2 h3) as (T & ET & H). rewrite ET. subst a. cbn [fst]. destruct (H ps Wa) as (v & Ev & _ & UB). rewrite Ev. specialize (UB (map fst more)).
    assert (completes n (map fst ps) (map fst more)) by (rewrite map_app in W; split; [exact W|]; intros j J; unfold full in Cc; rewrite map_app in Cc; apply Cc, J). specialize (UB H0). etransitivity; [exact L|exact UB].
  - assert (Z0 : forall l : list seg, total (fun _ _ => 0%Z) l = 0%Z) by (unfold total; induction l as [|x l IH]; cbn [map fold_right]; [reflexivity|]; now rewrite IH). rewrite Z0 in L. exact L.
Qed.
End Pb.
