(** C94, C95: incremental correction of a word graph given the prefixes typed by the user. *)
From Coq Require Import Ascii String Arith ZArith List Bool Lia.
From Verif Require Import EditDistSpec EditDistModel TextSpec TextModel EcSpec EcModel EcProofs EcwSpec EcwModel EcwProofs EcwGraph EcwInv EcwRun.
Import ListNotations.
Open Scope Z_scope.
Notation s2s := list_ascii_of_string (only parsing).

(** ** C94 *)

Lemma wcheapest_fun : forall hc ic sc dc o x y d d', wcheapest hc ic sc dc o x y d -> wcheapest hc ic sc dc o x y d' -> d = d'.
Proof. intros hc ic sc dc o x y d d' [(o1 & H1) L1] [(o2 & H2) L2]. specialize (L1 _ _ H2). specialize (L2 _ _ H1). lia. Qed.

Definition distance_to (hc ic sc dc : Z) (open : bool) (typed_words : list word) (ws : list word) (d : Z) : Prop := wcheapest hc ic sc dc open ws typed_words d.

Section S.
Variables (hc ic sc dc ecmW wgW : Z) (G : list warc) (s0 : Z) (Sc : nat -> Z).
Hypothesis DC : 0 < dc.
Hypothesis IC : 0 <= ic.
Hypothesis EW : 0 < ecmW.
Hypothesis WN : forall arc w, In arc G -> In w (a_words arc) -> w <> [].
Hypothesis TP : topo (map tup G).
Hypothesis SC : forall s ws c, gpath (map tup G) s0 s ws c -> wgW * c = wgW * Sc s.
Notation gp := (gpath (map tup G) s0).

Lemma gp_into : forall s ws c, gp s ws c -> s = 0%nat \/ into G (length G) s.
Proof.
  intros s ws c H. destruct H as [|s t ws us c d H Hi]; [left; reflexivity|]. right. apply in_map_iff in Hi. destruct Hi as (arc & T & Hi). inversion T; subst.
  apply In_nth_error in Hi. destruct Hi as [n Hn]. exists n, arc. split; [apply nth_error_Some; congruence|auto].
Qed.
Lemma typed_len : forall p0 l b, length (typed p0 l b) = (length p0 + 1)%nat.
Proof. intros. unfold typed. rewrite app_length. reflexivity. Qed.

Lemma D_dist : forall p0 l b ws j, clean l -> (forall w, In w p0 -> clean w) -> (j <= length p0 + 1)%nat -> (b = true -> j = (length p0 + 1)%nat -> ws <> []) ->
  distance_to hc ic sc dc (negb b && (j =? length p0 + 1)%nat) (firstn j (p0 ++ [l])) ws (D hc ic sc dc (typed p0 l b) ws j).
Proof.
  intros p0 l b ws j CL CP Hj NE. destruct (typed_facts p0 l b CL CP) as (WF & PC & PW & _ & LL).
  assert (TN : typed p0 l b <> []) by (unfold typed; destruct p0; discriminate).
  assert (LN : last (typed p0 l b) [] <> []) by (rewrite LL; destruct b; [destruct l; discriminate|apply CL]).
  pose proof (Dc_cheapest hc ic sc dc DC (typed p0 l b) ws j TN LN ltac:(rewrite typed_len; lia)) as H.
  rewrite PW, typed_len in H.
  assert (OP : open_of (typed p0 l b) = negb b) by (unfold open_of; destruct (typed p0 l b); [congruence|now rewrite PC]).
  rewrite OP in H. unfold distance_to. rewrite D_clean; auto; [rewrite typed_len; auto|].
  rewrite typed_len, OP. destruct b; [|auto]. destruct (Nat.eq_dec j (length p0 + 1)); [left; auto|right; left; lia].
Qed.

Lemma hist_typed : forall ps p0 l b, reusable_history [] (ps ++ [typed p0 l b]) ->
  exists st, run hc ic sc dc ecmW wgW G s0 (ps ++ [typed p0 l b]) = Some st /\ Full hc ic sc dc ecmW wgW G s0 Sc (typed p0 l b) (length p0 + 2) st.
Proof.
  intros ps p0 l b H. destruct (run_full hc ic sc dc ecmW wgW G s0 Sc DC EW WN TP SC _ H) as (st & E & F). exists st. split; [exact E|].
  rewrite last_last, typed_len in F. replace (length p0 + 2)%nat with (S (length p0 + 1)) by lia. exact F.
Qed.
End S.

(** [ps] are the prefixes the user hands over, the last one being the words [p0] and the word [l], followed by a blank iff
    [b].  After processing them, the score stored for state [s] and the first [j] words typed is the smallest distance from
    a sentence read on a path to [s] to these words; the last word counts as unfinished iff no blank was typed after it.
    Required: arcs are in topological order and carry no empty words; all paths to a state have the same weighted score;
    what is reused from one prefix to the next satisfies [reusable].  If a blank was typed and all words are considered
    then the empty sentence (the initial state) is excluded. *)
Theorem C94_state_scores_are_smallest_distances : forall (hc ic sc dc ecmW wgW : Z) (G : list warc) (s0 : Z) (Sc : nat -> Z) (ps : list (list str)) (p0 : list str) (l : str) (b : bool),
  0 < dc -> 0 <= ic -> 0 < ecmW ->
  (forall arc w, In arc G -> In w (a_words arc) -> w <> []) -> topo (map tup G) ->
  (forall s ws c, gpath (map tup G) s0 s ws c -> wgW * c = wgW * Sc s) ->
  clean l -> (forall w, In w p0 -> clean w) ->
  reusable_history [] (ps ++ [typed p0 l b]) ->
  exists st, run hc ic sc dc ecmW wgW G s0 (ps ++ [typed p0 l b]) = Some st /\
    forall s ws0 c0 j, gpath (map tup G) s0 s ws0 c0 -> (j <= length p0 + 1)%nat ->
      (b = true -> j = (length p0 + 1)%nat -> forall ws c, gpath (map tup G) s0 s ws c -> ws <> []) ->
      nearest (fun ws => exists c, gpath (map tup G) s0 s ws c)
              (distance_to hc ic sc dc (negb b && (j =? length p0 + 1)%nat) (firstn j (p0 ++ [l])))
              (nth j (esiS st s) 0).
Proof.
  intros hc ic sc dc ecmW wgW G s0 Sc ps p0 l b DC IC EW WN TP SC CL CP RH.
  destruct (hist_typed hc ic sc dc ecmW wgW G s0 Sc DC EW WN TP SC ps p0 l b RH) as (st & E & F).
  exists st. split; [exact E|]. intros s ws0 c0 j GP Hj NE.
  destruct (F_val _ _ _ _ _ _ _ _ _ _ _ _ F s j (gp_into G s0 s ws0 c0 GP) ltac:(lia)) as [[(ws & [c Hc] & V) L] _].
  split.
  - exists ws. split; [eauto|]. rewrite <- V. apply D_dist; auto. intros; eapply NE; eauto.
  - intros x d [c1 H1] HD. assert (X : d = D hc ic sc dc (typed p0 l b) x j); [|subst d; apply L; exists c1; auto].
    eapply wcheapest_fun; [exact HD|]. apply D_dist; auto. intros; eapply NE; eauto.
Qed.
Print Assumptions C94_state_scores_are_smallest_distances.

(** processing a history of prefixes gives the scores of processing its last prefix alone *)
Theorem C94_same_as_from_scratch : forall (hc ic sc dc ecmW wgW : Z) (G : list warc) (s0 : Z) (Sc : nat -> Z) (ps : list (list str)) (p0 : list str) (l : str) (b : bool),
  0 < dc -> 0 <= ic -> 0 < ecmW ->
  (forall arc w, In arc G -> In w (a_words arc) -> w <> []) -> topo (map tup G) ->
  (forall s ws c, gpath (map tup G) s0 s ws c -> wgW * c = wgW * Sc s) ->
  clean l -> (forall w, In w p0 -> clean w) ->
  reusable_history [] (ps ++ [typed p0 l b]) ->
  exists st st', run hc ic sc dc ecmW wgW G s0 (ps ++ [typed p0 l b]) = Some st /\ run hc ic sc dc ecmW wgW G s0 [typed p0 l b] = Some st' /\
    forall s ws c, gpath (map tup G) s0 s ws c -> esiS st s = esiS st' s /\ bestS st s = bestS st' s.
Proof.
  intros hc ic sc dc ecmW wgW G s0 Sc ps p0 l b DC IC EW WN TP SC CL CP RH.
  destruct (hist_typed hc ic sc dc ecmW wgW G s0 Sc DC EW WN TP SC ps p0 l b RH) as (st & E & F).
  destruct (hist_typed hc ic sc dc ecmW wgW G s0 Sc DC EW WN TP SC [] p0 l b) as (st' & E' & F').
  { cbn. split; [|auto]. exists [], [], (typed p0 l b). split; [reflexivity|]. split; [reflexivity|]. split; [intros [|i]; discriminate|auto]. }
  exists st, st'. split; [exact E|]. split; [exact E'|]. intros s ws c GP. pose proof (gp_into _ _ _ _ _ GP) as IN.
  destruct (F_len _ _ _ _ _ _ _ _ _ _ _ _ F s IN) as [(L1 & L2 & _) _]. destruct (F_len _ _ _ _ _ _ _ _ _ _ _ _ F' s IN) as [(L1' & L2' & _) _].
  assert (EV : forall j, (j < length p0 + 2)%nat -> nth j (esiS st s) 0 = nth j (esiS st' s) 0).
  { intros j Hj. eapply mset_inj; [apply (F_val _ _ _ _ _ _ _ _ _ _ _ _ F s j IN Hj)|apply (F_val _ _ _ _ _ _ _ _ _ _ _ _ F' s j IN Hj)]. }
  split.
  - apply nth_ext with (d := 0) (d' := 0); [lia|]. intros n Hn. apply EV. lia.
  - apply nth_ext with (d := None) (d' := None); [lia|]. intros n Hn. rewrite L2 in Hn.
    destruct (F_val _ _ _ _ _ _ _ _ _ _ _ _ F s n IN Hn) as [_ B]. destruct (F_val _ _ _ _ _ _ _ _ _ _ _ _ F' s n IN Hn) as [_ B']. unfold bcol in B, B'. rewrite B, B', EV by auto. reflexivity.
Qed.
Print Assumptions C94_same_as_from_scratch.

Definition wgx : list warc := [mkarc 0 1 [s2s "the"; s2s "red"] 0; mkarc 0 1 [s2s "a"] 0; mkarc 1 2 [s2s "house"] 0; mkarc 1 2 [s2s "car"] 0].
Definition wgz : list warc := [mkarc 0 1 [s2s "the"] 0; mkarc 1 2 [s2s "car"] 0].
(** Reuse when the new prefix continues the old one: the column of a word typed last (unfinished) is kept for a finished word. *)
Theorem C94_continued_prefix_refuted : exists st st',
  run 0 1 1 1 1 1 wgz 0 [[s2s "th"]; [s2s "th"; s2s "c"]] = Some st /\ run 0 1 1 1 1 1 wgz 0 [[s2s "th"; s2s "c"]] = Some st' /\
  esiS st 1 <> esiS st' 1.
Proof. eexists _, _. split; [vm_compute; reflexivity|]. split; [vm_compute; reflexivity|]. vm_compute. discriminate. Qed.
Print Assumptions C94_continued_prefix_refuted.
(** and conversely when the new prefix is a beginning of the old one *)
Theorem C94_shortened_prefix_refuted : exists st st',
  run 0 1 1 1 1 1 wgz 0 [[s2s "th"; s2s "c"]; [s2s "th"]] = Some st /\ run 0 1 1 1 1 1 wgz 0 [[s2s "th"]] = Some st' /\
  esiS st 1 <> esiS st' 1.
Proof. eexists _, _. split; [vm_compute; reflexivity|]. split; [vm_compute; reflexivity|]. vm_compute. discriminate. Qed.
Print Assumptions C94_shortened_prefix_refuted.
(** a later agreement of the two prefixes counts as if it were at the beginning: the columns of the old first word are kept *)
Theorem C94_later_agreement_refuted : exists st st',
  run 0 1 1 1 1 1 wgx 0 [[s2s "the"; s2s "red"]; [s2s "myself"; s2s "red"]] = Some st /\ run 0 1 1 1 1 1 wgx 0 [[s2s "myself"; s2s "red"]] = Some st' /\
  esiS st 1 <> esiS st' 1.
Proof. eexists _, _. split; [vm_compute; reflexivity|]. split; [vm_compute; reflexivity|]. vm_compute. discriminate. Qed.
Print Assumptions C94_later_agreement_refuted.
(** in the initial state the blank typed after the last word is charged like a character *)
Theorem C94_initial_state_blank_refuted : exists st, run 0 1 1 1 1 1 wgx 0 [[s2s "a "]] = Some st /\ nth 1 (esiS st 0) 0 = 2 /\
  ~ wcheapest 0 1 1 1 false [] [s2s "a"] 2.
Proof.
  eexists. split; [vm_compute; reflexivity|]. split; [vm_compute; reflexivity|]. intros [_ H].
  specialize (H [INS_OP] (1 * Z.of_nat (length (s2s "a")) + 0) (ws_ins 0 1 1 1 false [] [] (s2s "a") [] 0 (ws_nil 0 1 1 1 false))). vm_compute in H. congruence.
Qed.
Print Assumptions C94_initial_state_blank_refuted.

Lemma wgx_topo : topo (map tup wgx).
Proof.
  intros a s t us d H. destruct a as [|[|[|[|a]]]]; cbn in H; try (destruct a; discriminate); inversion H; subst; clear H; (split; [discriminate|]); split.
  1, 3: left; reflexivity.
  3, 5: right; exists 0%nat, 0%nat, [s2s "the"; s2s "red"], 0; split; [lia|reflexivity].
  all: intros b s' us' d' H; destruct b as [|[|[|[|b]]]]; cbn in H; try (destruct b; discriminate); inversion H; subst; lia.
Qed.
Lemma wgx_zero : forall s ws c, gpath (map tup wgx) 0 s ws c -> c = 0.
Proof. intros s ws c H. induction H as [|s t ws us c d H IH Hi]; [reflexivity|]. subst c. cbn in Hi. destruct Hi as [E|[E|[E|[E|[]]]]]; inversion E; reflexivity. Qed.
Example C94_nonvacuous : (forall arc w, In arc wgx -> In w (a_words arc) -> w <> []) /\ topo (map tup wgx) /\
  (forall s ws c, gpath (map tup wgx) 0 s ws c -> 1 * c = 1 * 0) /\
  reusable_history [] ([typed [] (s2s "t") false; typed [] (s2s "tha") true] ++ [typed [s2s "tha"] (s2s "red") true]) /\
  exists st, run 0 1 1 1 1 1 wgx 0 ([typed [] (s2s "t") false; typed [] (s2s "tha") true] ++ [typed [s2s "tha"] (s2s "red") true]) = Some st /\
    esiS st 1 = [1; 2; 1] /\ esiS st 2 = [4; 4; 4] /\ bestUncorr wgx st 4 2 2 = Some [s2s "the"; s2s "red"; s2s "car"].
Proof.
  split; [intros arc w H; cbn in H; destruct H as [<-|[<-|[<-|[<-|[]]]]]; cbn; intros H; repeat destruct H as [<-|H]; try discriminate; contradiction|].
  split; [exact wgx_topo|]. split; [intros s ws c H; apply wgx_zero in H; lia|]. split.
  - cbn. split; [|split; [|split; [|exact I]]].
    + exists [], [], [s2s "t"]. split; [reflexivity|]. split; [reflexivity|]. split; [intros [|i]; discriminate|auto].
    + exists [], [s2s "t"], [s2s "tha "]. split; [reflexivity|]. split; [reflexivity|]. split; [|auto]. intros [|[|i]] a b H1 H2; inversion H1; inversion H2; subst; discriminate.
    + exists [], [s2s "tha "], [s2s "tha"; s2s "red "]. split; [reflexivity|]. split; [reflexivity|]. split; [|auto]. intros [|[|i]] a b H1 H2; inversion H1; inversion H2; subst; discriminate.
  - eexists. split; [vm_compute; reflexivity|]. vm_compute. auto.
Qed.

(** ** C95 *)
(** the combined score of a state is the best over its paths, and the sentence found by following the stored predecessors
    is read on a path to the state with that score *)
Theorem C95_best_path_is_optimal : forall (hc ic sc dc ecmW wgW : Z) (G : list warc) (s0 : Z) (Sc : nat -> Z) (ps : list (list str)) (p0 : list str) (l : str) (b : bool),
  0 < dc -> 0 <= ic -> 0 < ecmW ->
  (forall arc w, In arc G -> In w (a_words arc) -> w <> []) -> topo (map tup G) ->
  (forall s ws c, gpath (map tup G) s0 s ws c -> wgW * c = wgW * Sc s) ->
  clean l -> (forall w, In w p0 -> clean w) ->
  reusable_history [] (ps ++ [typed p0 l b]) ->
  exists st, run hc ic sc dc ecmW wgW G s0 (ps ++ [typed p0 l b]) = Some st /\
    forall s ws0 c0 j, gpath (map tup G) s0 s ws0 c0 -> (j <= length p0 + 1)%nat ->
      (b = true -> j = (length p0 + 1)%nat -> forall ws c, gpath (map tup G) s0 s ws c -> ws <> []) ->
      let dist := distance_to hc ic sc dc (negb b && (j =? length p0 + 1)%nat) (firstn j (p0 ++ [l])) in
      exists ws c d, bestUncorr G st (length G) s j = Some ws /\ gpath (map tup G) s0 s ws c /\ dist ws d /\
        nth j (bestS st s) None = Some (- (ecmW * d) + wgW * c) /\
        forall ws' c' d', gpath (map tup G) s0 s ws' c' -> dist ws' d' -> - (ecmW * d') + wgW * c' <= - (ecmW * d) + wgW * c.
Proof.
  intros hc ic sc dc ecmW wgW G s0 Sc ps p0 l b DC IC EW WN TP SC CL CP RH.
  destruct (hist_typed hc ic sc dc ecmW wgW G s0 Sc DC EW WN TP SC ps p0 l b RH) as (st & E & F).
  exists st. split; [exact E|]. intros s ws0 c0 j GP Hj NE dist. pose proof (gp_into G s0 s ws0 c0 GP) as IN.
  destruct (F_val _ _ _ _ _ _ _ _ _ _ _ _ F s j IN ltac:(lia)) as [[_ L] BC].
  destruct (bestUncorr_ok hc ic sc dc ecmW wgW G s0 Sc TP (typed p0 l b) _ st F (length G) s j (length G)) as (ws & E1 & [c GC] & DV); auto; [|lia|].
  { intros b0 arc X _. apply nth_error_Some. congruence. }
  exists ws, c, (D hc ic sc dc (typed p0 l b) ws j). split; [exact E1|]. split; [exact GC|]. split; [apply D_dist; auto; intros; eapply NE; eauto|].
  split; [unfold bcol in BC; rewrite BC, DV; rewrite (SC _ _ _ GC); f_equal; lia|].
  intros ws' c' d' GP' HD. assert (X : d' = D hc ic sc dc (typed p0 l b) ws' j).
  { eapply wcheapest_fun; [exact HD|]. apply D_dist; auto. intros; eapply NE; eauto. }
  subst d'. rewrite (SC _ _ _ GC), (SC _ _ _ GP'), DV. specialize (L ws' ltac:(exists c'; auto)). cbv beta in L. nia.
Qed.
Print Assumptions C95_best_path_is_optimal.

(** The word-graph score kept for a state is the one of the arc processed last, not of the best one: with different path
    scores the combined score is not the best. *)
Definition wgy : list warc := [mkarc 0 1 [s2s "a"] 5; mkarc 0 1 [s2s "a"] 0; mkarc 1 2 [s2s "b"] 0].
Theorem C95_path_scores_refuted : exists st, run 0 1 1 1 1 1 wgy 0 [[s2s "a "]] = Some st /\
  nth 1 (bestS st 2) None = Some (-1) /\
  gpath (map tup wgy) 0 2 ([] ++ [s2s "a"] ++ [s2s "b"]) (0 + 5 + 0) /\ distance_to 0 1 1 1 false [s2s "a"] [s2s "a"; s2s "b"] 1.
Proof.
  eexists. split; [vm_compute; reflexivity|]. split; [vm_compute; reflexivity|]. split.
  - rewrite app_assoc. apply (gp_arc _ _ 1%nat 2%nat); [|cbn; auto]. apply (gp_arc _ _ 0%nat 1%nat); [constructor|cbn; auto].
  - assert (D1 : 0 < 1) by lia. assert (D0 : 0 <= 1) by lia.
    assert (CL : clean (s2s "a")) by (split; [discriminate|intros [H|[]]; discriminate]).
    exact (D_dist 0 1 1 1 D1 D0 [] (s2s "a") true [s2s "a"; s2s "b"] 1 CL (fun _ H => False_ind _ H) (le_n _) (fun _ _ => ltac:(discriminate))).
Qed.
Print Assumptions C95_path_scores_refuted.
Example C95_nonvacuous : exists st, run 0 1 1 1 2 1 wgx 0 [typed [s2s "tha"] (s2s "red") true] = Some st /\
  bestUncorr wgx st 4 2 2 = Some [s2s "the"; s2s "red"; s2s "car"] /\ nth 2 (bestS st 2) None = Some (-8).
Proof. eexists. split; [vm_compute; reflexivity|]. vm_compute. auto. Qed.
