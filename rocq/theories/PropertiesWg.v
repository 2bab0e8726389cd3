(** C44-C47, C57, C58: word graphs (WordGraph.cc, NbSearchStack.cc).  Specification: WgSpec.v (arcs, paths, scores, histories); code: WgModel.v.
    Every graph below is one obtained from the empty graph by a history of calls. *)
From Coq Require Import ZArith List Bool Lia Arith Sorted Permutation.
From Verif Require Import WgSpec WgModel.
From Verif Require WgBase WgHeurProofs WgNbProofs WgNbMore WgOrderProofs WgUsefulProofs WgBestProofs WgPruneProofs.
Import ListNotations.
Open Scope nat_scope.
(** [built g]: some history of calls produced g *)
Definition built (g : wg) : Prop := exists ops, wg_run ops wg_new = Some g.
(** the final states are states of the graph *)
Definition finals_ok (g : wg) : Prop := Forall (fun s => s < length (states g)) (finals g).
Definition apath (g : wg) := path (arcs g) (arcsPruned g).
(** scores of the paths of non-pruned arcs from s to a final state *)
Definition completion_score (g : wg) (s : nat) (z : Z) : Prop := exists p t, apath g s p t /\ In t (finals g) /\ z = pscore (arcs g) p.
Lemma built_wf : forall g, built g -> WgBase.wf g.
Proof. intros g [ops H]. exact (WgBase.wf_run _ _ _ WgBase.wf_new H). Qed.

(** a small lattice used as witness: two paths to the final state 3 and a dead end at 4 *)
Definition demo_ops : list wgop :=
  [OArc 0 1 [1] (-1)%Z [1%Z]; OArc 0 2 [2] (-2)%Z [2%Z]; OArc 1 3 [3] (-5)%Z [3%Z]; OArc 2 3 [4] (-3)%Z [4%Z]; OArc 2 4 [5] 0%Z [5%Z]; OFinal 3].
Definition demo : wg := match wg_run demo_ops wg_new with Some g => g | None => wg_new end.
Lemma demo_built : built demo.
Proof. exists demo_ops. reflexivity. Qed.
Lemma topo_check : forall ar pr, forallb (fun i => forallb (fun j => match nth_error ar i, nth_error ar j with
    Some a, Some b => negb (a_succ a =? a_pred b) || (i <? j) | _, _ => true end) (seq 0 (length ar))) (seq 0 (length ar)) = true -> topological ar pr.
Proof.
  intros ar pr H i j a b [Ha _] [Hb _] E. rewrite forallb_forall in H.
  assert (Hi : i < length ar) by (apply nth_error_Some; congruence). assert (Hj : j < length ar) by (apply nth_error_Some; congruence).
  specialize (H i ltac:(apply in_seq; lia)). rewrite forallb_forall in H. specialize (H j ltac:(apply in_seq; lia)).
  rewrite Ha, Hb in H. apply orb_true_iff in H. destruct H as [H|H]; [apply negb_true_iff, Nat.eqb_neq in H; congruence|apply Nat.ltb_lt; exact H].
Qed.
Lemma path_head : forall ar pr s i p t, path ar pr s (i :: p) t -> option_map a_pred (nth_error ar i) = Some s.
Proof. intros ar pr s i p t H. inversion H as [|i' a p' t' [Ha _] Hp E1 E2 E3]; subst. rewrite Ha. reflexivity. Qed.
Lemma path_tail : forall ar pr s i p t, path ar pr s (i :: p) t -> exists a, nth_error ar i = Some a /\ nth_error pr i = Some false /\ path ar pr (a_succ a) p t.
Proof. intros ar pr s i p t H. inversion H as [|i' a p' t' [Ha Hb] Hp E1 E2 E3]; subst. exists a. auto. Qed.
Fixpoint pathb (ar : list arc) (pr : list bool) (s : nat) (p : list nat) (t : nat) : bool :=
  match p with [] => s =? t | i :: r => match nth_error ar i, nth_error pr i with Some a, Some false => (a_pred a =? s) && pathb ar pr (a_succ a) r t | _, _ => false end end.
Lemma pathb_ok : forall ar pr p s t, pathb ar pr s p t = true -> path ar pr s p t.
Proof.
  intros ar pr p; induction p as [|i r IH]; intros s t H; cbn [pathb] in H; [apply Nat.eqb_eq in H; subst; constructor|].
  destruct (nth_error ar i) as [a|] eqn:E1; [|discriminate]. destruct (nth_error pr i) as [[|]|] eqn:E2; try discriminate.
  apply andb_true_iff in H. destruct H as [H1 H2]. apply Nat.eqb_eq in H1. subst s. constructor; [split; assumption|auto].
Qed.
Lemma demo_topo : topological (arcs demo) (arcsPruned demo).
Proof. apply topo_check. reflexivity. Qed.
Lemma demo_finals : finals_ok demo.
Proof. repeat constructor. Qed.

(** ** C46: bookkeeping *)
(** the arcs of the graph are the arcs added, in order; a state's lists of incoming and outgoing arcs are exactly the non-pruned arcs entering and
    leaving it, in increasing order, for every history (also with pruning and unpruning in between) *)
Theorem C46_adjacency : forall ops g, wg_run ops wg_new = Some g ->
  arcs g = arcs_of ops /\ length (states g) = states_of ops /\ length (arcsPruned g) = length (arcs g) /\
  forall s,
    getArcIdsToSuccStates g s = Some (filter (fun i => negb (nth i (arcsPruned g) true)) (arc_numbers (fun a => a_pred a =? s) (arcs_of ops))) /\
    getArcIdsToPredStates g s = Some (filter (fun i => negb (nth i (arcsPruned g) true)) (arc_numbers (fun a => a_succ a =? s) (arcs_of ops))).
Proof.
  intros ops g H. pose proof (WgBase.wf_run _ _ _ WgBase.wf_new H) as W. pose proof (WgNbMore.run_arcs ops wg_new g WgBase.wf_new H) as A. cbn in A.
  split; [exact A|]. split; [exact (WgNbMore.run_states ops g H)|]. split; [exact (WgBase.wf_pr g W)|]. intros s. rewrite <- A.
  split; [exact (WgBase.getSucc_spec g s W)|exact (WgBase.getPred_spec g s W)].
Qed.
Print Assumptions C46_adjacency.
(** building never goes out of bounds exactly when every arc leaves a known state (histories without pruning) *)
Theorem C46_defined : forall ops, Forall WgNbMore.no_prune ops -> ((exists g, wg_run ops wg_new = Some g) <-> preds_known ops).
Proof. exact WgNbMore.run_defined. Qed.
Print Assumptions C46_defined.
(** topological reordering: on an acyclic graph it yields a permutation of the arcs in topological order; otherwise it leaves the graph alone *)
Theorem C46_order : forall g, built g -> Forall (fun b => b = false) (arcsPruned g) ->
  exists g', orderArcsTopol g = Some g' /\
    (acyclic (arcs g) -> Permutation (arcs g') (arcs g) /\ topological (arcs g') (arcsPruned g')) /\
    (g' = g \/ (Permutation (arcs g') (arcs g) /\ topological (arcs g') (arcsPruned g'))).
Proof. intros g B U. exact (WgOrderProofs.order_result g (built_wf g B) U). Qed.
Print Assumptions C46_order.
(** Finding: the adjacency lists are not renumbered.  The graph 1->2, 0->1 with final state 2 has one complete path, of score -3.  After reordering,
    the arcs leaving state 0 are reported as [1] (that is arc 1->2), and the n-best list holds one hypothesis, that single arc, with a wrong score *)
Theorem C46_order_refuted : exists ops g g', wg_run ops wg_new = Some g /\ orderArcsTopol g = Some g' /\
  map (fun a => (a_pred a, a_succ a, a_score a)) (arcs g') = [(0, 1, (-1)%Z); (1, 2, (-2)%Z)] /\
  getArcIdsToSuccStates g' 0 = Some [1] /\
  option_map done (obtainNbestList 100 g' 5) = Some [((-2)%Z, [1])] /\ ~ complete (arcs g') (arcsPruned g') (finals g') [1].
Proof.
  exists [OArc 1 2 [7] (-2)%Z []; OArc 0 1 [8] (-1)%Z []; OFinal 2]. eexists. eexists. split; [reflexivity|]. split; [vm_compute; reflexivity|].
  split; [reflexivity|]. split; [reflexivity|]. split; [vm_compute; reflexivity|].
  intros [_ [t [_ Hp]]]. apply path_head in Hp. discriminate Hp.
Qed.
Print Assumptions C46_order_refuted.
Example C46_nonvacuous : arcs demo = arcs_of demo_ops /\ length (states demo) = 5 /\ getArcIdsToSuccStates demo 2 = Some [3; 4] /\ getArcIdsToPredStates demo 3 = Some [2; 3].
Proof. repeat split. Qed.

(** ** C44: rest scores of the n-best search *)
(** for scores of normal magnitude the rest score of every state from which a final state can be reached is the best score of such a path, and the
    rest score of the other states is at most SMALL_SCORE plus the total magnitude, below every genuine one *)
Theorem C44_rest_is_best_completion : forall g, built g -> topological (arcs g) (arcsPruned g) -> finals_ok g ->
  (SMALL_SCORE + 2 * total_abs (arcs g) < 0)%Z ->
  exists h, obtainNbSearchHeurInfo g = Some h /\ length h = length (states g) /\
    forall s, s < length (states g) ->
      ((exists z, completion_score g s z) -> is_max (completion_score g s) (nth s h 0%Z)) /\
      (~ (exists z, completion_score g s z) -> (SMALL_SCORE <= nth s h 0 <= SMALL_SCORE + total_abs (arcs g))%Z).
Proof.
  intros g Bu T F B. destruct (WgHeurProofs.heur_max g (built_wf g Bu) T F) as [h [E [L H]]]. exists h. split; [exact E|]. split; [exact L|].
  intros s Hs. split; intros X.
  - pose proof (WgHeurProofs.completion_final g 0%Z s _ T B (H s Hs) X) as Q. rewrite Z.sub_0_r in Q. exact Q.
  - exact (WgHeurProofs.completion_dead g 0%Z s _ T (H s Hs) X).
Qed.
Print Assumptions C44_rest_is_best_completion.
(** without the bound on the magnitudes: the rest score is the best value of a path, one that ends outside the final states being worth SMALL_SCORE more *)
Theorem C44_rest_exact : forall g, built g -> topological (arcs g) (arcsPruned g) -> finals_ok g ->
  exists h, obtainNbSearchHeurInfo g = Some h /\ length h = length (states g) /\
    forall s, s < length (states g) ->
      is_max (fun z => exists p t, apath g s p t /\ z = (pscore (arcs g) p + (if existsb (Nat.eqb t) (finals g) then 0 else SMALL_SCORE))%Z) (nth s h 0%Z).
Proof. intros g Bu T F. exact (WgHeurProofs.heur_max g (built_wf g Bu) T F). Qed.
Print Assumptions C44_rest_exact.
Example C44_nonvacuous : built demo /\ topological (arcs demo) (arcsPruned demo) /\ finals_ok demo /\ (SMALL_SCORE + 2 * total_abs (arcs demo) < 0)%Z /\
  obtainNbSearchHeurInfo demo = Some [-5; -5; -3; 0; SMALL_SCORE]%Z.
Proof. split; [exact demo_built|]. split; [exact demo_topo|]. split; [exact demo_finals|]. split; [reflexivity|vm_compute; reflexivity]. Qed.
(** finding: on arcs that are not in topological order the scan misses completions *)
Theorem C44_unordered_refuted : exists ops g h, wg_run ops wg_new = Some g /\ obtainNbSearchHeurInfo g = Some h /\
  completion_score g 0 (-3)%Z /\ (nth 0 h 0 < -3)%Z.
Proof.
  exists [OArc 1 2 [7] (-2)%Z []; OArc 0 1 [8] (-1)%Z []; OFinal 2]. eexists. eexists. split; [reflexivity|]. split; [vm_compute; reflexivity|]. split.
  - exists [1; 0], 2. split; [|split; [left; reflexivity|reflexivity]].
    apply pathb_ok; reflexivity.
  - reflexivity.
Qed.
Print Assumptions C44_unordered_refuted.

(** ** C45: n-best list *)
(** [nbest g len r]: obtainNbestList(len) ends and yields the list r of (score, arcs of the path) *)
Definition nbest (g : wg) (len : nat) (s : nbst) : Prop := exists fuel, obtainNbestList fuel g len = Some s.
Definition score_of (g : wg) (p : list nat) : Z := (initScore g + pscore (arcs g) p)%Z.
Lemma nbest_inv : forall g len s, built g -> topological (arcs g) (arcsPruned g) -> finals_ok g -> arcs g <> [] -> nbest g len s ->
  exists h, obtainNbSearchHeurInfo g = Some h /\ (exists k, nb_loop k g h (Some NBEST_MAX_STACK_SIZE) len (WgNbProofs.init_state g h (Some NBEST_MAX_STACK_SIZE)) = Some s) /\
    WgNbProofs.nb_inv g h len s /\ (len <= length (done s) \/ stack s = []).
Proof.
  intros g len s Bu T F NE [k H]. pose proof (built_wf g Bu) as W. destruct (WgHeurProofs.heur_max g W T F) as [h [E _]]. exists h. split; [exact E|].
  unfold obtainNbestList in H. destruct (arcs g) eqn:Ea; [congruence|]. rewrite <- Ea in *. rewrite E in H.
  rewrite (WgNbProofs.search_unfold g W T F NE h E) in H. split; [eauto|].
  exact (WgNbProofs.loop_inv g W T F NE h E _ _ _ _ _ (WgNbProofs.init_inv g h (Some NBEST_MAX_STACK_SIZE) _) H).
Qed.
Lemma nodup_mid : forall (a b c : list (list nat)), NoDup (a ++ b ++ c) -> NoDup b.
Proof.
  intros a b c H. assert (H1 : NoDup (b ++ c)) by (revert H; induction a as [|x a IH]; intros H; [exact H|]; cbn [app] in H; apply NoDup_cons_iff in H; tauto).
  clear H. revert H1. induction b as [|x b IH]; intros H; [constructor|]. cbn [app] in H. apply NoDup_cons_iff in H. destruct H as [N1 N2]. constructor; [|auto].
  intros K. apply N1. apply in_app_iff. auto.
Qed.
(** the search ends, whatever the graph, the stack limit and the number asked for *)
Theorem C45_terminates : forall g len, built g -> topological (arcs g) (arcsPruned g) -> finals_ok g -> exists s, nbest g len s.
Proof.
  intros g len Bu T F. destruct (arcs g) as [|a0 l] eqn:Ea.
  - eexists. exists 0. unfold obtainNbestList. rewrite Ea. reflexivity.
  - assert (NE : arcs g <> []) by congruence. rewrite <- Ea in T. pose proof (built_wf g Bu) as W. destruct (WgHeurProofs.heur_max g W T F) as [h [E _]].
    destruct (WgNbProofs.loop_terminates g W T F NE h E (Some NBEST_MAX_STACK_SIZE) len _ _ (WgNbProofs.init_inv g h (Some NBEST_MAX_STACK_SIZE) _) (Nat.lt_succ_diag_r _)) as [s [Q _]].
    exists s. eexists. unfold obtainNbestList. rewrite Ea, E. rewrite (WgNbProofs.search_unfold g W T F NE h E). exact Q.
Qed.
Print Assumptions C45_terminates.
(** whatever the limit of the stack made it drop: the list has at most len entries, by decreasing score, of pairwise different complete paths, each
    with its exact score *)
Theorem C45_sound : forall g len s, built g -> topological (arcs g) (arcsPruned g) -> finals_ok g -> nbest g len s ->
  length (done s) <= len /\ StronglySorted (fun x y => (fst y <= fst x)%Z) (done s) /\ NoDup (map snd (done s)) /\
  Forall (fun e => complete (arcs g) (arcsPruned g) (finals g) (snd e) /\ fst e = score_of g (snd e)) (done s).
Proof.
  intros g len s Bu T F H. destruct (arcs g) as [|a0 l] eqn:Ea.
  - destruct H as [k H]. unfold obtainNbestList in H. rewrite Ea in H. injection H as <-. cbn. split; [lia|]. repeat constructor.
  - assert (NE : arcs g <> []) by congruence. rewrite <- Ea in *. destruct (nbest_inv g len s Bu T F NE H) as [h [E [_ [I _]]]].
    split; [exact (WgNbProofs.i_len _ _ _ _ I)|]. split; [exact (WgNbProofs.i_dsorted _ _ _ _ I)|]. split; [|exact (WgNbProofs.i_listed _ _ _ _ I)].
    pose proof (proj1 (WgNbProofs.i_pf _ _ _ _ I)) as ND. unfold WgNbProofs.hyps in ND. rewrite !map_app in ND.
    exact (nodup_mid _ _ _ ND).
Qed.
Print Assumptions C45_sound.
(** optimality: when no arc leaves a final state, a complete path missing from the list either begins with a hypothesis the stack limit dropped, or the
    list is full and every entry scores at least as much *)
Theorem C45_optimal : forall g len s, built g -> topological (arcs g) (arcsPruned g) -> finals_ok g -> nbest g len s ->
  (forall i a, alive (arcs g) (arcsPruned g) i a -> ~ In (a_pred a) (finals g)) ->
  forall p, complete (arcs g) (arcsPruned g) (finals g) p -> ~ In p (map snd (done s)) ->
    (exists e r, In e (dropped s) /\ p = snd e ++ r) \/ (length (done s) = len /\ Forall (fun e => (score_of g p <= fst e)%Z) (done s)).
Proof.
  intros g len s Bu T F H DF p Hc Hnot. pose proof (built_wf g Bu) as W. destruct (arcs g) as [|a0 l] eqn:Ea.
  - exfalso. destruct Hc as [Hne [t [_ Hp]]]. inversion Hp as [|i a q u Ha Hq]; subst; [congruence|]. destruct Ha as [Ha _]. destruct i; discriminate.
  - assert (NE : arcs g <> []) by congruence. rewrite <- Ea in *. destruct (nbest_inv g len s Bu T F NE H) as [h [E [[k Hk] [I D]]]].
    destruct (WgNbProofs.unlisted g W T F NE h E DF len s p I Hc Hnot) as [e [He [[r Er] Hs]]]. apply in_app_iff in He.
    destruct He as [He|He]; [|left; eauto]. right. destruct D as [D|D]; [|rewrite D in He; destruct He].
    split; [pose proof (WgNbProofs.i_len _ _ _ _ I); lia|]. apply Forall_forall. intros x Hx.
    assert (B0 : WgNbProofs.bound (WgNbProofs.init_state g h (Some NBEST_MAX_STACK_SIZE))) by (intros x' y' []).
    pose proof (WgNbProofs.loop_bound g W T F NE h E DF _ _ _ _ _ (WgNbProofs.init_inv g h (Some NBEST_MAX_STACK_SIZE) _) B0 Hk x e Hx He). unfold score_of. lia.
Qed.
Print Assumptions C45_optimal.
(** the stack limit (10000) drops nothing in a graph where at most 10000 paths leave the initial state *)
Theorem C45_no_drop : forall g len s, built g -> topological (arcs g) (arcsPruned g) -> finals_ok g -> nbest g len s ->
  (forall L : list (list nat), NoDup L -> (forall p, In p L -> exists t, apath g 0 p t) -> length L <= NBEST_MAX_STACK_SIZE) -> dropped s = [].
Proof.
  intros g len s Bu T F H Few. pose proof (built_wf g Bu) as W. destruct (arcs g) as [|a0 l] eqn:Ea.
  - destruct H as [k H]. unfold obtainNbestList in H. rewrite Ea in H. injection H as <-. reflexivity.
  - assert (NE : arcs g <> []) by congruence. rewrite <- Ea in *. destruct (nbest_inv g len s Bu T F NE H) as [h [E [[k Hk] [I D]]]].
    refine (WgNbMore.nodrop_loop g W T F NE h E _ Few len k _ s (WgNbProofs.init_inv g h (Some NBEST_MAX_STACK_SIZE) _) (WgNbMore.nodrop_init g h _ Few) Hk).
Qed.
Print Assumptions C45_no_drop.
(** the score components reported for an entry are, one by one, the sums over its arcs *)
Theorem C45_components : forall g w p cs, p <> [] -> Forall2 (fun i c => nth_error (comps g) i = Some c /\ length c = w) p cs ->
  exists r, hypComps g p = Some r /\ length r = w /\ forall k, nth k r 0%Z = fold_right Z.add 0%Z (map (fun c => nth k c 0%Z) cs).
Proof.
  intros g w p cs NE H.
  assert (A : forall a b, length a = w -> length b = w -> exists r, add_comps a b = Some r /\ length r = w /\ forall k, nth k r 0%Z = (nth k a 0 + nth k b 0)%Z).
  { clear. intros a. revert w. induction a as [|x a IH]; intros w [|y b] La Lb; cbn in La, Lb; subst; try discriminate; cbn [add_comps].
    - exists []. repeat split. intros [|k]; reflexivity.
    - destruct (IH (length a) b eq_refl ltac:(lia)) as (r & -> & L & K). exists (x + y :: r)%Z. repeat split; [cbn; lia|]. intros [|k]; cbn [nth]; auto. }
  assert (S : forall p cs acc, length acc = w -> Forall2 (fun i c => nth_error (comps g) i = Some c /\ length c = w) p cs ->
    exists r, sum_comps g acc p = Some r /\ length r = w /\ forall k, nth k r 0%Z = (nth k acc 0 + fold_right Z.add 0 (map (fun c => nth k c 0) cs))%Z).
  { clear NE H. intros q ds acc L F. revert acc L. induction F as [|i c q' ds [Hc Lc] F' IH]; intros acc L; cbn [sum_comps map fold_right].
    - exists acc. repeat split; auto. intros; lia.
    - rewrite Hc. destruct (A acc c L Lc) as (r & -> & Lr & K). destruct (IH r Lr) as (r2 & E & L2 & K2). exists r2. repeat split; auto. intros k. rewrite K2, K. lia. }
  destruct H as [|i c p ds [Hc Lc] F]; [congruence|]. cbn [hypComps]. rewrite Hc.
  destruct (S p ds c Lc F) as (r & E & L & K). exists r. repeat split; auto.
Qed.
Print Assumptions C45_components.
(** Finding: with arcs leaving a final state the list is not optimal, and longer complete paths never appear.  Here 0 -> 1 -> 2 with finals 1 and 2:
    the path 0,1,2 scores 9, and the list only holds 0,1 with score -1 *)
Theorem C45_final_with_successors_refuted : exists ops g s p, wg_run ops wg_new = Some g /\ topological (arcs g) (arcsPruned g) /\ finals_ok g /\ nbest g 5 s /\
  dropped s = [] /\ complete (arcs g) (arcsPruned g) (finals g) p /\ score_of g p = 9%Z /\ done s = [((-1)%Z, [0])].
Proof.
  exists [OArc 0 1 [7] (-1)%Z []; OArc 1 2 [8] 10%Z []; OFinal 1; OFinal 2]. do 2 eexists. exists [0; 1]. split; [reflexivity|].
  split; [apply topo_check; reflexivity|]. split; [repeat constructor|]. split; [exists 100; vm_compute; reflexivity|]. split; [reflexivity|]. split.
  - split; [discriminate|]. exists 2. split; [right; left; reflexivity|].
    apply pathb_ok; reflexivity.
  - split; reflexivity.
Qed.
Print Assumptions C45_final_with_successors_refuted.
Example C45_nonvacuous : option_map (fun s => (done s, dropped s)) (obtainNbestList 50 demo 7) = Some ([((-5)%Z, [1; 3]); ((-6)%Z, [0; 2])], []) /\
  (forall i a, alive (arcs demo) (arcsPruned demo) i a -> ~ In (a_pred a) (finals demo)).
Proof.
  split; [vm_compute; reflexivity|]. intros i a [Ha _] [E|[]]. do 5 (destruct i as [|i]; [cbn in Ha; injection Ha as <-; discriminate|]). destruct i; discriminate.
Qed.

(** ** C47: useful states *)
Definition entered (g : wg) (s : nat) : Prop := exists i a, alive (arcs g) (arcsPruned g) i a /\ a_succ a = s.
Definition goal (g : wg) (t : nat) : Prop := In t (finals g) /\ entered g t.
(** the states marked are exactly the final states with an incoming arc and the states between the initial state and one of those *)
Theorem C47_useful : forall g, built g -> topological (arcs g) (arcsPruned g) -> finals_ok g -> arcs g <> [] ->
  exists v m, obtainUsefulStates g = Some (v, m) /\ length v = length (states g) /\
    (forall s, s < length (states g) -> (nth s v false = true <->
      goal g s \/ ((exists p, apath g 0 p s) /\ exists t p, apath g s p t /\ goal g t))) /\
    (** the renumbering gives the k-th marked state the number k *)
    (forall s, assoc s m = if nth s v false then Some (length (filter (fun b => b) (firstn s v))) else None).
Proof.
  intros g Bu T F NE. pose proof (built_wf g Bu) as W.
  destruct (WgUsefulProofs.usefulVec_spec g W T F (WgNbProofs.states_pos g W T NE)) as [v [E [L H]]].
  exists v, (remap v 0 INITIAL_STATE). unfold obtainUsefulStates. rewrite E. split; [reflexivity|]. split; [exact L|]. split.
  - intros s Hs. rewrite (H s Hs). split.
    + intros [G|[R [t [[p Hp] G]]]]; [left; exact G|right; split; [exact R|exists t, p; split; [exact Hp|exact G]]].
    + intros [G|[R [t [p [Hp G]]]]]; [left; exact G|right; split; [exact R|exists t; split; [exists p; exact Hp|exact G]]].
  - intros s. exact (WgUsefulProofs.assoc_remap0 v s).
Qed.
Print Assumptions C47_useful.
(** what a path spells: for each arc its words, its score and its score components *)
Definition spelled (g : wg) (p : list nat) : list (option (list nat * Z * list Z)) :=
  map (fun i => match nth_error (arcs g) i, nth_error (comps g) i with Some a, Some c => Some (a_words a, a_score a, c) | _, _ => None end) p.
Lemma useful_graph : forall g g', built g -> topological (arcs g) (arcsPruned g) -> finals_ok g -> arcs g <> [] -> obtainWgComposedOfUsefulStates g = Some g' ->
  exists v, usefulVec g = Some v /\ WgUsefulProofs.ginv g v (finals (WgUsefulProofs.start g v)) (length (arcs g)) g'.
Proof.
  intros g g' Bu T F NE H. pose proof (built_wf g Bu) as W. pose proof (WgNbProofs.states_pos g W T NE) as SP.
  destruct (WgUsefulProofs.usefulVec_spec g W T F SP) as [v [E [L _]]]. exists v. split; [exact E|].
  unfold obtainWgComposedOfUsefulStates in H. destruct (arcs g) eqn:Ea; [congruence|]. rewrite <- Ea in *. unfold obtainUsefulStates in H. rewrite E in H.
  exact (WgUsefulProofs.regen_partial g W T F SP v E _ _ 0 _ g' H eq_refl (WgUsefulProofs.start_ginv g v)).
Qed.
(** building the graph of useful states never loses a complete path *)
Theorem C47_paths_kept : forall g g', built g -> topological (arcs g) (arcsPruned g) -> finals_ok g -> arcs g <> [] -> obtainWgComposedOfUsefulStates g = Some g' ->
  initScore g' = initScore g /\
  forall p, complete (arcs g) (arcsPruned g) (finals g) p -> exists p', complete (arcs g') (arcsPruned g') (finals g') p' /\ spelled g' p' = spelled g p.
Proof.
  intros g g' Bu T F NE H. pose proof (built_wf g Bu) as W. pose proof (WgNbProofs.states_pos g W T NE) as SP. destruct (useful_graph g g' Bu T F NE H) as [v [E G]].
  split; [exact (WgUsefulProofs.g_init _ _ _ _ _ G)|].
  intros p [Hne [t [Ht Hp]]]. destruct (WgUsefulProofs.regen_forward g W T F SP v E g' G p t Hp Ht Hne) as [p' [t' [H1 [H2 [H3 [H4 _]]]]]].
  exists p'. split; [split; [exact H3|exists t'; auto]|exact H4].
Qed.
Print Assumptions C47_paths_kept.
(** if every final state with an incoming arc can be reached from the initial state, building it succeeds and adds no path either *)
Theorem C47_no_new_paths : forall g, built g -> topological (arcs g) (arcsPruned g) -> finals_ok g -> arcs g <> [] ->
  (forall t, goal g t -> exists p, apath g 0 p t) ->
  exists g', obtainWgComposedOfUsefulStates g = Some g' /\
    forall p', complete (arcs g') (arcsPruned g') (finals g') p' -> exists p, complete (arcs g) (arcsPruned g) (finals g) p /\ spelled g p = spelled g' p'.
Proof.
  intros g Bu T F NE HR. pose proof (built_wf g Bu) as W. pose proof (WgNbProofs.states_pos g W T NE) as SP.
  assert (HR' : forall t, In t (finals g) -> WgUsefulProofs.entered g t -> reaches (arcs g) (arcsPruned g) 0 t) by (intros t H1 H2; exact (HR t (conj H1 H2))).
  destruct (WgUsefulProofs.usefulVec_spec g W T F SP) as [v [E [L _]]]. destruct (WgUsefulProofs.regen_total g W T F SP v E HR') as [g' Hg].
  assert (Hg' : obtainWgComposedOfUsefulStates g = Some g').
  { unfold obtainWgComposedOfUsefulStates. destruct (arcs g) eqn:Ea; [congruence|]. unfold obtainUsefulStates. rewrite E. exact Hg. }
  exists g'. split; [exact Hg'|]. destruct (useful_graph g g' Bu T F NE Hg') as [v' [E' G]]. 
  intros p' [Hne [t' [Ht Hp]]]. destruct (WgUsefulProofs.regen_backward g W T F SP v' E' g' G HR' p' t' Hp Ht Hne) as [p [t [H1 [H2 [H3 [H4 _]]]]]].
  exists p. split; [split; [exact H3|exists t; auto]|exact H4].
Qed.
Print Assumptions C47_no_new_paths.
Example C47_nonvacuous : option_map fst (obtainUsefulStates demo) = Some [true; true; true; true; false] /\ (forall t, goal demo t -> exists p, apath demo 0 p t) /\
  option_map (fun g => (length (arcs g), finals g)) (obtainWgComposedOfUsefulStates demo) = Some (4, [3]).
Proof.
  split; [vm_compute; reflexivity|]. split; [|vm_compute; reflexivity]. intros t [[<-|[]] _]. exists [0; 2].
    apply pathb_ok; reflexivity.
Qed.
(** Finding: an unreachable final state with an incoming arc takes the number of the initial state.  Arcs 0->1, 2->3, 3->4, final states 3 and 4: there is no
    complete path, yet the graph of useful states has one *)
Theorem C47_unreachable_final_refuted : exists ops g g', wg_run ops wg_new = Some g /\ topological (arcs g) (arcsPruned g) /\ finals_ok g /\
  obtainWgComposedOfUsefulStates g = Some g' /\ (forall p, ~ complete (arcs g) (arcsPruned g) (finals g) p) /\ complete (arcs g') (arcsPruned g') (finals g') [0].
Proof.
  exists [OArc 0 1 [1] 0%Z []; OArc 2 3 [2] 0%Z []; OArc 3 4 [3] 0%Z []; OFinal 3; OFinal 4]. do 2 eexists. split; [reflexivity|].
  split; [apply topo_check; reflexivity|]. split; [repeat constructor|]. split; [vm_compute; reflexivity|]. split.
  - intros p [Hne [t [Ht Hp]]]. destruct p as [|i p]; [congruence|]. pose proof (path_head _ _ _ _ _ _ Hp) as E.
    destruct i as [|[|[|i]]]; cbn in E; try discriminate; [|destruct i; discriminate].
    apply path_tail in Hp. destruct Hp as [a [Ha [_ Hq]]]. cbn in Ha. injection Ha as Ha. rewrite <- Ha in Hq. cbn [a_succ] in Hq.
    destruct p as [|j p]; [inversion Hq; subst; cbn in Ht; intuition discriminate|]. apply path_head in Hq.
    destruct j as [|[|[|j]]]; cbn in Hq; try discriminate. destruct j; discriminate.
  - split; [discriminate|]. exists 1. split; [right; left; reflexivity|]. apply pathb_ok. reflexivity.
Qed.
Print Assumptions C47_unreachable_final_refuted.

(** ** C57: best path from a state to the final states, optionally avoiding a set of arcs *)
Definition start_score (g : wg) (s : nat) : Z := if Nat.eqb s 0 then initScore g else 0%Z.
Definition avoids (excl p : list nat) : Prop := Forall (fun i => ~ In i excl) p.
Definition normal (g : wg) (s : nat) : Prop := (SMALL_SCORE + 2 * total_abs (arcs g) < start_score g s)%Z.
(** when a final state can be reached without the excluded arcs, the path returned (in reverse order of arcs) is such a path, the score returned is its
    score, and no other such path scores more *)
Theorem C57_best_path : forall g s excl, built g -> topological (arcs g) (arcsPruned g) -> finals_ok g -> arcs g <> [] -> s < length (states g) -> normal g s ->
  (exists q t, apath g s q t /\ In t (finals g) /\ avoids excl q) ->
  exists z p t, (forall fuel, length (arcs g) <= fuel -> bestPathFromFinalStateToIdx fuel g s excl = Some (z, p)) /\
    apath g s (rev p) t /\ In t (finals g) /\ avoids excl p /\ z = (start_score g s + pscore (arcs g) (rev p))%Z /\
    forall q u, apath g s q u -> In u (finals g) -> avoids excl q -> (start_score g s + pscore (arcs g) q <= z)%Z.
Proof.
  intros g s excl Bu T F NE Hs B [q0 [t0 [H0 [H1 H2]]]].
  destruct (WgBestProofs.best_path_found g (built_wf g Bu) T NE s Hs excl B F t0 H1 (ex_intro _ q0 (conj H0 H2))) as [z [p [u [Q1 [Q2 [Q3 [Q4 [Q5 Q6]]]]]]]].
  exists z, p, u. split; [exact Q1|]. split; [exact Q3|]. split; [exact Q2|]. split; [exact Q4|]. split; [exact Q5|exact Q6].
Qed.
Print Assumptions C57_best_path.
(** when none can be reached, the arc scores are not positive (log-probabilities) and the initial state is not final, it returns the empty path *)
Theorem C57_no_path : forall g s excl, built g -> topological (arcs g) (arcsPruned g) -> finals_ok g -> arcs g <> [] -> s < length (states g) -> normal g s ->
  (forall q t, apath g s q t -> avoids excl q -> ~ In t (finals g)) -> (forall i a, nth_error (arcs g) i = Some a -> (a_score a <= 0)%Z) -> ~ In 0 (finals g) ->
  forall fuel, bestPathFromFinalStateToIdx fuel g s excl = Some (SMALL_SCORE, []).
Proof.
  intros g s excl Bu T F NE Hs B Hno Hneg H0. refine (WgBestProofs.best_path_none g (built_wf g Bu) T NE s Hs excl B F _ Hneg H0).
  intros t Ht [q [Hq Ha]]. exact (Hno q t Hq Ha Ht).
Qed.
Print Assumptions C57_no_path.
(** Findings: with a positive score after an excluded arc the walk back follows a pointer that was never set (undefined behaviour) *)
Theorem C57_positive_score_refuted : exists ops g, wg_run ops wg_new = Some g /\ topological (arcs g) (arcsPruned g) /\ finals_ok g /\ normal g 0 /\
  forall fuel, bestPathFromFinalStateToIdx (S fuel) g 0 [0] = None.
Proof.
  exists [OArc 0 1 [1] 0%Z []; OArc 1 2 [2] 5%Z []; OFinal 2]. eexists. split; [reflexivity|]. split; [apply topo_check; reflexivity|].
  split; [repeat constructor|]. split; [reflexivity|]. intros fuel. destruct fuel as [|f]; [vm_compute; reflexivity|vm_compute; reflexivity].
Qed.
Print Assumptions C57_positive_score_refuted.
(** and so does a final initial state that cannot be reached from the starting state *)
Theorem C57_final_initial_refuted : exists ops g, wg_run ops wg_new = Some g /\ topological (arcs g) (arcsPruned g) /\ finals_ok g /\ normal g 1 /\
  forall fuel, bestPathFromFinalStateToIdx fuel g 1 [] = None.
Proof.
  exists [OArc 0 1 [1] 0%Z []; OFinal 0]. eexists. split; [reflexivity|]. split; [apply topo_check; reflexivity|].
  split; [repeat constructor|]. split; [reflexivity|]. intros [|fuel]; vm_compute; reflexivity.
Qed.
Print Assumptions C57_final_initial_refuted.
Example C57_nonvacuous : normal demo 0 /\ normal demo 2 /\ bestPathFromFinalStateToIdx 10 demo 0 [] = Some ((-5)%Z, [3; 1]) /\
  bestPathFromFinalStateToIdx 10 demo 0 [3] = Some ((-6)%Z, [2; 0]) /\ bestPathFromFinalStateToIdx 10 demo 0 [2; 3] = Some (SMALL_SCORE, []).
Proof. split; [reflexivity|]. split; [reflexivity|]. repeat split; vm_compute; reflexivity. Qed.

(** ** C58: pruning by score *)
(** With a zero initial score: the arcs kept are exactly those on a complete path whose score is within the threshold of the best one; the number returned
    is the number of arcs pruned.  [C58_prune_general] gives the general case, where the initial score is counted twice *)
Definition cpath (g : wg) (p : list nat) : Prop := exists t, In t (finals g) /\ apath g 0 p t.
Theorem C58_prune_general : forall g lt best, built g -> topological (arcs g) (arcsPruned g) -> finals_ok g -> arcs g <> [] ->
  Forall (fun b => b = false) (arcsPruned g) -> normal g 0 -> (SMALL_SCORE + 4 * total_abs (arcs g) < lt)%Z ->
  is_max (fun z => exists p, cpath g p /\ z = pscore (arcs g) p) best ->
  exists g' n, pruneArcs g lt = Some (g', n) /\ arcs g' = arcs g /\ finals g' = finals g /\ n = length (filter (fun b => b) (arcsPruned g')) /\
    forall i a, nth_error (arcs g) i = Some a ->
      (nth_error (arcsPruned g') i = Some false <-> exists p, cpath g p /\ In i p /\ (best + lt <= initScore g + pscore (arcs g) p)%Z).
Proof.
  intros g lt best Bu T F NE U B Bl M. pose proof (built_wf g Bu) as W. destruct (WgPruneProofs.prune_result g W T F NE U B lt Bl best M) as [g' [n [E [C H]]]].
  exists g', n. split; [exact E|]. destruct (WgBase.pruneArcs_inv g lt g' n W E) as [_ [A [_ [A2 _]]]]. split; [exact A|]. split; [exact A2|]. split; [exact C|exact H].
Qed.
Print Assumptions C58_prune_general.
Theorem C58_prune : forall g lt best, built g -> topological (arcs g) (arcsPruned g) -> finals_ok g -> arcs g <> [] ->
  Forall (fun b => b = false) (arcsPruned g) -> initScore g = 0%Z -> normal g 0 -> (SMALL_SCORE + 4 * total_abs (arcs g) < lt)%Z ->
  is_max (fun z => exists p, cpath g p /\ z = pscore (arcs g) p) best ->
  exists g' n, pruneArcs g lt = Some (g', n) /\ n = length (filter (fun b => b) (arcsPruned g')) /\
    forall i a, nth_error (arcs g) i = Some a ->
      (nth_error (arcsPruned g') i = Some false <-> exists p, cpath g p /\ In i p /\ (best + lt <= pscore (arcs g) p)%Z).
Proof.
  intros g lt best Bu T F NE U I0 B Bl M. destruct (C58_prune_general g lt best Bu T F NE U B Bl M) as [g' [n [E [_ [_ [C H]]]]]]. exists g', n.
  split; [exact E|]. split; [exact C|]. rewrite I0 in H. exact H.
Qed.
Print Assumptions C58_prune.
(** hence, with a threshold at most 1 (its logarithm at most 0) every best path survives *)
Theorem C58_best_survives : forall g lt best, built g -> topological (arcs g) (arcsPruned g) -> finals_ok g -> arcs g <> [] ->
  Forall (fun b => b = false) (arcsPruned g) -> initScore g = 0%Z -> normal g 0 -> (SMALL_SCORE + 4 * total_abs (arcs g) < lt <= 0)%Z ->
  is_max (fun z => exists p, cpath g p /\ z = pscore (arcs g) p) best ->
  exists g' n, pruneArcs g lt = Some (g', n) /\ forall p, cpath g p -> pscore (arcs g) p = best -> cpath g' p.
Proof.
  intros g lt best Bu T F NE U I0 B Bl M. destruct (C58_prune_general g lt best Bu T F NE U B (proj1 Bl) M) as [g' [n [E [A [A2 [_ H]]]]]]. exists g', n.
  split; [exact E|]. intros p [t [Ht Hp]] Es. exists t. rewrite A2. split; [exact Ht|]. unfold apath in *. rewrite A.
  assert (K : forall i, In i p -> nth_error (arcsPruned g') i = Some false).
  { intros i Hi. destruct (nth_error (arcs g) i) as [a|] eqn:Ea.
    - apply (H i a Ea). exists p. split; [exists t; split; assumption|]. split; [exact Hi|]. lia.
    - exfalso. clear -Hp Hi Ea. induction Hp as [s|j a p t [Ha _] Hp IH]; [destruct Hi|]. destruct Hi as [->|Hi]; [congruence|auto]. }
  clear -Hp K. induction Hp as [s|j a p t [Ha _] Hp IH]; [constructor|]. constructor; [split; [exact Ha|apply K; left; reflexivity]|]. apply IH. intros i Hi. apply K. right. exact Hi.
Qed.
Print Assumptions C58_best_survives.
(** Finding: a negative initial score is counted twice in the score of an arc but once in the best score, so the best path itself is pruned *)
Theorem C58_initial_score_refuted : exists ops g g' n, wg_run ops wg_new = Some g /\ topological (arcs g) (arcsPruned g) /\ finals_ok g /\ normal g 0 /\
  pruneArcs g (-5)%Z = Some (g', n) /\ cpath g [0] /\ n = 1 /\ forall p, ~ complete (arcs g') (arcsPruned g') (finals g') p.
Proof.
  exists [OArc 0 1 [1] (-1)%Z []; OFinal 1; OInit (-10)%Z]. do 3 eexists. split; [reflexivity|]. split; [apply topo_check; reflexivity|].
  split; [repeat constructor|]. split; [reflexivity|]. split; [vm_compute; reflexivity|]. split; [exists 1; split; [left; reflexivity|apply pathb_ok; reflexivity]|].
  split; [reflexivity|]. intros p [Hne [t [_ Hp]]]. destruct p as [|i p]; [congruence|]. apply path_tail in Hp. destruct Hp as [a [_ [Ha _]]]. destruct i as [|i]; [discriminate|destruct i; discriminate].
Qed.
Print Assumptions C58_initial_score_refuted.
Example C58_nonvacuous : Forall (fun b => b = false) (arcsPruned demo) /\ initScore demo = 0%Z /\ normal demo 0 /\ (SMALL_SCORE + 4 * total_abs (arcs demo) < 0)%Z /\
  option_map (fun r => (arcsPruned (fst r), snd r)) (pruneArcs demo 0%Z) = Some ([true; false; true; false; true], 3) /\
  option_map (fun r => (arcsPruned (fst r), snd r)) (pruneArcs demo (-1)%Z) = Some ([false; false; false; false; true], 1).
Proof. split; [repeat constructor|]. split; [reflexivity|]. split; [reflexivity|]. split; [reflexivity|]. split; vm_compute; reflexivity. Qed.
