(** orderArcsTopol: on an unpruned graph it permutes the arcs into topological order if the graph is acyclic, and otherwise leaves the graph as it is. *)
From Coq Require Import ZArith List Bool Lia Arith Sorted Permutation.
From Verif Require Import WgSpec WgModel WgBase WgHeurProofs.
Import ListNotations.
Open Scope nat_scope.

Lemma all_added_spec : forall ad ids, (forall i, In i ids -> i < length ad) ->
  exists b, all_added ad ids = Some b /\ (b = true <-> forall i, In i ids -> nth i ad false = true).
Proof.
  intros ad ids; induction ids as [|i ids IH]; intros H; cbn [all_added].
  - exists true. split; [reflexivity|]. split; [intros _ i []|auto].
  - rewrite (nth_error_nth' ad false) by (apply H; left; auto). destruct (nth i ad false) eqn:E.
    + destruct IH as [b [Eb Q]]; [intros; apply H; right; auto|]. exists b. split; [exact Eb|]. rewrite Q. split.
      * intros A j [<-|Hj]; auto.
      * intros A j Hj. apply A. right; auto.
    + exists false. split; [reflexivity|]. split; [discriminate|]. intros A. rewrite (A i (or_introl eq_refl)) in E. discriminate.
Qed.
Lemma all_pred_closed_spec : forall g cl ids, wf g -> length cl = length (states g) -> (forall i, In i ids -> exists a, nth_error (arcs g) i = Some a) ->
  exists b, all_pred_closed g cl ids = Some b /\
    (b = true <-> forall i a, In i ids -> nth_error (arcs g) i = Some a -> nth (a_pred a) cl false = true).
Proof.
  intros g cl ids W L; induction ids as [|i ids IH]; intros H; cbn [all_pred_closed].
  - exists true. split; [reflexivity|]. split; [intros _ i a []|auto].
  - destruct (H i (or_introl eq_refl)) as [a Ha]. rewrite Ha. pose proof (wf_ends g W i a Ha) as [Ep _].
    rewrite (nth_error_nth' cl false) by lia. destruct (nth (a_pred a) cl false) eqn:E.
    + destruct IH as [b [Eb Q]]; [intros; apply H; right; auto|]. exists b. split; [exact Eb|]. rewrite Q. split.
      * intros A j a' [<-|Hj] Ha'; [congruence|eauto].
      * intros A j a' Hj. apply A. right; auto.
    + exists false. split; [reflexivity|]. split; [discriminate|]. intros A. rewrite (A i a (or_introl eq_refl) Ha) in E. discriminate.
Qed.
Section Order.
Variable g : wg.
Hypothesis W : wf g.
Hypothesis U : Forall (fun b => b = false) (arcsPruned g).
Notation n := (length (arcs g)).
Lemma alive_all : forall i a, nth_error (arcs g) i = Some a -> alive (arcs g) (arcsPruned g) i a.
Proof.
  intros i a H. split; [exact H|]. destruct (nth_ex _ (arcsPruned g) i) as [b Hb]; [rewrite (wf_pr g W); apply (nth_lt _ _ _ _ H)|].
  rewrite Hb. rewrite Forall_forall in U. rewrite (U b (nth_error_In _ _ Hb)). reflexivity.
Qed.
Record oinv (s : ost) : Prop := {
  o_la : length (added s) = n;
  o_lc : length (closed s) = length (states g);
  o_nd : NoDup (out s);
  o_mem : forall i, In i (out s) <-> nth i (added s) false = true;
  o_rng : forall i, In i (out s) -> i < n;
  o_cl : forall i a, nth_error (arcs g) i = Some a -> In i (out s) -> nth (a_pred a) (closed s) false = true;
  o_ord : forall l1 j l2 b, out s = l1 ++ j :: l2 -> nth_error (arcs g) j = Some b ->
          forall i a, nth_error (arcs g) i = Some a -> a_succ a = a_pred b -> In i l1
}.
Definition ready (s : ost) (a : arc) : Prop := forall i b, nth_error (arcs g) i = Some b -> a_succ b = a_pred a -> In i (out s).
Lemma pred_ids : forall q, exists ids, getArcIdsToPredStates g q = Some ids /\ forall i, In i ids <-> exists a, nth_error (arcs g) i = Some a /\ a_succ a = q.
Proof.
  intros q. exists (filter (fun i => negb (nth i (arcsPruned g) true)) (entering (arcs g) q)). split; [apply getPred_spec; exact W|].
  intros i. rewrite (pred_ids_In g q _ W (getPred_spec g q W) i). split.
  - intros [a [[Ha _] E]]. eauto.
  - intros [a [Ha E]]. exists a. split; [apply alive_all, Ha|exact E].
Qed.
(** one arc: either skipped (already output or not ready) or appended *)
Lemma step_spec : forall i a s, oinv s -> nth_error (arcs g) i = Some a ->
  (order_step g i s = Some s /\ (In i (out s) \/ ~ ready s a)) \/
  (exists s', order_step g i s = Some s' /\ oinv s' /\ out s' = out s ++ [i] /\ any s' = true).
Proof.
  intros i a s I Ha. pose proof (nth_lt _ _ _ _ Ha) as Hi. unfold order_step.
  rewrite (nth_error_nth' (added s) false) by (rewrite (o_la s I); exact Hi).
  destruct (nth i (added s) false) eqn:Ead; [left; split; [reflexivity|left; apply (o_mem s I); exact Ead]|].
  rewrite Ha. destruct (pred_ids (a_pred a)) as [ids [Eids Mids]]. rewrite Eids.
  destruct (all_pred_closed_spec g (closed s) ids W (o_lc s I)) as [b1 [E1 Q1]]; [intros j Hj; apply Mids in Hj; destruct Hj as [b [Hb _]]; eauto|].
  rewrite E1. destruct (all_added_spec (added s) ids) as [b2 [E2 Q2]].
  { intros j Hj. apply Mids in Hj. destruct Hj as [b [Hb _]]. rewrite (o_la s I). apply (nth_lt _ _ _ _ Hb). }
  rewrite E2. destruct (b1 && b2) eqn:E.
  - apply andb_true_iff in E. destruct E as [-> ->]. right.
    pose proof (wf_ends g W i a Ha) as [Ep Es].
    destruct (upd_ok _ i (fun _ => true) (added s)) as [ad' Ea]; [rewrite (o_la s I); exact Hi|]. rewrite Ea.
    destruct (upd_ok _ (a_pred a) (fun _ => true) (closed s)) as [cl' Ec]; [rewrite (o_lc s I); exact Ep|]. rewrite Ec.
    apply upd_some in Ea. destruct Ea as [_ [La Na]]. apply upd_some in Ec. destruct Ec as [_ [Lc Nc]].
    assert (Hni : ~ In i (out s)) by (intros Hin; apply (o_mem s I) in Hin; congruence).
    assert (Nad : forall j, nth j ad' false = if j =? i then true else nth j (added s) false).
    { intros j. specialize (Na j). destruct (Nat.lt_ge_cases j (length (added s))) as [Hj|Hj].
      - rewrite (nth_error_nth' ad' false), (nth_error_nth' (added s) false) in Na by lia. destruct (j =? i); cbn in Na; congruence.
      - rewrite !nth_overflow by lia. destruct (Nat.eqb_spec j i); [rewrite (o_la s I) in Hj; lia|reflexivity]. }
    assert (Ncl : forall j, nth j (closed s) false = true \/ j = a_pred a -> nth j cl' false = true).
    { intros j Hj. specialize (Nc j). destruct (Nat.lt_ge_cases j (length (closed s))) as [Hj'|Hj'].
      - rewrite (nth_error_nth' cl' false), (nth_error_nth' (closed s) false) in Nc by lia.
        destruct (Nat.eqb_spec j (a_pred a)); cbn in Nc; injection Nc as Nc; rewrite Nc; [reflexivity|]. destruct Hj; [auto|congruence].
      - rewrite (o_lc s I) in Hj'. destruct Hj as [Hj|Hj]; [|lia]. rewrite nth_overflow in Hj by (rewrite (o_lc s I); lia). discriminate. }
    eexists. split; [reflexivity|]. split; [|split; reflexivity].
    constructor; cbn.
    + rewrite La. apply (o_la s I).
    + rewrite Lc. apply (o_lc s I).
    + eapply Permutation_NoDup; [apply Permutation_cons_append|]. constructor; [exact Hni|apply (o_nd s I)].
    + intros j. rewrite in_app_iff, (o_mem s I), Nad. cbn. destruct (Nat.eqb_spec j i) as [Q|Q]; [split; auto|]. split; [intros [H|[H|[]]]; [auto|congruence]|auto].
    + intros j Hj. apply in_app_or in Hj. destruct Hj as [Hj|[<-|[]]]; [apply (o_rng s I); exact Hj|exact Hi].
    + intros j b Hb Hj. apply Ncl. apply in_app_or in Hj. destruct Hj as [Hj|[<-|[]]]; [left; apply (o_cl s I j b Hb Hj)|right; congruence].
    + intros l1 j l2 b El Hb k c Hc Ek.
      destruct l2 as [|z l2] using rev_ind.
      * apply app_inj_tail in El. destruct El as [<- <-]. assert (b = a) by congruence. subst b.
        apply (o_mem s I). apply (proj1 Q2 eq_refl). apply Mids. eauto.
      * clear IHl2. rewrite app_comm_cons, app_assoc in El. apply app_inj_tail in El. destruct El as [El _].
        apply (o_ord s I l1 j l2 b El Hb k c Hc Ek).
  - left. split; [reflexivity|right]. intros R. apply andb_false_iff in E. destruct E as [->| ->].
    + assert (false = true); [|discriminate]. apply Q1. intros j b Hj Hb. apply Mids in Hj. destruct Hj as [b' [Hb' Es]].
      assert (b' = b) by congruence. subst b'. apply (o_cl s I j b Hb). apply (R j b Hb Es).
    + assert (false = true); [|discriminate]. apply Q2. intros j Hj. apply Mids in Hj. destruct Hj as [b [Hb Es]].
      apply (o_mem s I). apply (R j b Hb Es).
Qed.
Lemma pass_spec : forall ids s, oinv s -> Forall (fun i => i < n) ids ->
  exists s', order_pass g ids s = Some s' /\ oinv s' /\ length (out s) <= length (out s') /\
    ((any s' = true /\ (any s = true \/ length (out s) < length (out s'))) \/
     (any s' = false /\ s' = s /\ forall i a, In i ids -> nth_error (arcs g) i = Some a -> In i (out s) \/ ~ ready s a)).
Proof.
  induction ids as [|i ids IH]; intros s I H; cbn [order_pass].
  - exists s. split; [reflexivity|]. split; [exact I|]. split; [lia|]. destruct (any s); [left; auto|right; split; [auto|split; [auto|intros i a []]]].
  - inversion H; subst. destruct (nth_ex _ (arcs g) i) as [a Ha]; [exact H2|].
    destruct (step_spec i a s I Ha) as [[E D]|[s1 [E [I1 [O1 A1]]]]]; rewrite E.
    + destruct (IH s I H3) as [s' [E' [I' [L' D']]]]. exists s'. split; [exact E'|]. split; [exact I'|]. split; [exact L'|].
      destruct D' as [D'|[D1 [D2 D3]]]; [left; exact D'|]. right. split; [exact D1|]. split; [exact D2|].
      intros j b [<-|Hj] Hb; [assert (b = a) by congruence; subst b; exact D|eauto].
    + destruct (IH s1 I1 H3) as [s' [E' [I' [L' D']]]]. exists s'. split; [exact E'|]. split; [exact I'|].
      rewrite O1, app_length in L'. cbn in L'. split; [lia|]. left. destruct D' as [[D1 _]|[D1 [D2 _]]]; [split; [exact D1|right; lia]|congruence].
Qed.
Lemma oinv_reset : forall s, oinv s -> oinv {| out := out s; added := added s; closed := closed s; any := false |}.
Proof. intros s I. destruct I. constructor; cbn; auto. Qed.
(** result of the whole loop *)
Lemma loop_spec : forall fuel s, oinv s -> n < fuel + length (out s) ->
  exists s', order_loop fuel g s = Some s' /\ oinv s' /\
    (n <= length (out s') \/ forall i a, nth_error (arcs g) i = Some a -> In i (out s') \/ ~ ready s' a).
Proof.
  induction fuel as [|k IH]; intros s I H; cbn [order_loop].
  - destruct (Nat.leb_spec n (length (out s))); [|lia]. exists s. auto.
  - destruct (Nat.leb_spec n (length (out s))) as [Hl|Hl]; [exists s; auto|].
    destruct (pass_spec (fwd g) _ (oinv_reset s I)) as [s' [E [I' [L D]]]].
    { apply Forall_forall. intros i Hi. apply in_seq in Hi. lia. }
    rewrite E. cbn [out any] in *. destruct D as [[D1 [D2|D2]]|[D1 [D2 D3]]]; rewrite D1.
    + discriminate.
    + apply IH; [exact I'|lia].
    + exists s'. split; [reflexivity|]. split; [exact I'|]. right. intros i a Ha. subst s'. cbn [out].
      destruct (D3 i a) as [Q|Q]; auto. unfold fwd. apply in_seq. apply nth_lt in Ha. lia.
Qed.
Lemma start_inv : oinv {| out := []; added := repeat false n; closed := repeat false (length (states g)); any := false |}.
Proof.
  constructor; cbn [out added closed].
  - apply repeat_length.
  - apply repeat_length.
  - constructor.
  - intros i. split; [intros []|]. intros E. destruct (Nat.lt_ge_cases i n) as [H|H].
    + rewrite (nth_error_nth _ _ false (nth_repeat_lt bool false n i H)) in E. discriminate.
    + rewrite nth_overflow in E by (rewrite repeat_length; lia). discriminate.
  - intros i [].
  - intros i a _ [].
  - intros [|x l1] j l2 b E; discriminate.
Qed.
(** in an acyclic graph some arc not yet output is ready *)
Lemma acyclic_progress : forall s, acyclic (arcs g) -> oinv s -> (forall i a, nth_error (arcs g) i = Some a -> In i (out s) \/ ~ ready s a) -> n <= length (out s).
Proof.
  intros s [r R] I H.
  assert (Q : forall m i a, nth_error (arcs g) i = Some a -> r (a_pred a) < m -> In i (out s)).
  { induction m as [|m IH]; intros i a Ha Hm; [lia|]. destruct (H i a Ha) as [Hin|Hn]; [exact Hin|]. exfalso. apply Hn.
    intros j b Hb Eb. apply (IH j b Hb). pose proof (R j b Hb). rewrite Eb in H0. lia. }
  rewrite <- (seq_length n 0). apply NoDup_incl_length; [apply seq_NoDup|]. intros i Hi. apply in_seq in Hi.
  destruct (nth_ex _ (arcs g) i) as [a Ha]; [lia|]. apply (Q (S (r (a_pred a))) i a Ha). lia.
Qed.
Definition arc_list (l : list nat) : list arc := flat_map (fun i => match nth_error (arcs g) i with Some a => [a] | None => [] end) l.
Lemma arc_list_nth : forall l k, Forall (fun i => i < n) l -> nth_error (arc_list l) k = match nth_error l k with Some i => nth_error (arcs g) i | None => None end.
Proof.
  induction l as [|i l IH]; intros k H; [destruct k; reflexivity|]. inversion H; subst.
  destruct (nth_ex _ (arcs g) i H2) as [a Ha]. unfold arc_list. cbn [flat_map]. rewrite Ha. cbn [app].
  destruct k; cbn [nth_error]; [auto|]. apply IH; auto.
Qed.
Lemma arc_list_perm : forall l, Permutation l (seq 0 n) -> Permutation (arc_list l) (arcs g).
Proof.
  intros l H. assert (E : arc_list (seq 0 n) = arcs g).
  { unfold arc_list. clear. induction (arcs g) as [|a l IH]; [reflexivity|]. cbn [length seq flat_map nth_error app]. f_equal.
    rewrite <- seq_shift, flat_map_concat_map, map_map, <- flat_map_concat_map. cbn [nth_error]. exact IH. }
  rewrite <- E. unfold arc_list. rewrite !flat_map_concat_map.
  clear E. induction H; cbn [map concat].
  - constructor.
  - apply Permutation_app_head; auto.
  - rewrite !app_assoc. apply Permutation_app_tail, Permutation_app_comm.
  - eapply Permutation_trans; eauto.
Qed.
Lemma out_full : forall s, oinv s -> length (out s) = n -> Permutation (out s) (seq 0 n).
Proof.
  intros s I L. apply NoDup_Permutation_bis; [apply (o_nd s I)|rewrite seq_length; lia|].
  intros i Hi. apply in_seq. pose proof (o_rng s I i Hi). lia.
Qed.
Lemma out_topological : forall s, oinv s -> length (out s) = n -> topological (arc_list (out s)) (arcsPruned g).
Proof.
  intros s I L i j a b [Hi _] [Hj _] E.
  assert (R : Forall (fun i => i < n) (out s)) by (apply Forall_forall, (o_rng s I)).
  rewrite arc_list_nth in Hi, Hj by exact R. destruct (nth_error (out s) i) as [x|] eqn:Ex; [|discriminate].
  destruct (nth_error (out s) j) as [y|] eqn:Ey; [|discriminate].
  destruct (nth_error_split _ _ Ey) as [l1 [l2 [Eo Lj]]]. pose proof (o_ord s I l1 y l2 b Eo Hj x a Hi E) as Hin.
  apply In_nth_error in Hin. destruct Hin as [k Hk]. pose proof (nth_lt _ _ _ _ Hk) as Hkl.
  assert (k = i); [|lia]. apply (proj1 (NoDup_nth_error (out s)) (o_nd s I)).
  - rewrite Eo, app_length. lia.
  - rewrite Ex, Eo, nth_error_app1 by exact Hkl. exact Hk.
Qed.
Lemma order_result : exists g', orderArcsTopol g = Some g' /\
  (acyclic (arcs g) -> Permutation (arcs g') (arcs g) /\ topological (arcs g') (arcsPruned g')) /\
  (g' = g \/ (Permutation (arcs g') (arcs g) /\ topological (arcs g') (arcsPruned g'))).
Proof.
  destruct (loop_spec (S n) _ start_inv) as [s [E [I D]]]; [cbn; lia|].
  unfold orderArcsTopol. rewrite E. destruct (Nat.eqb_spec (length (out s)) n) as [L|L].
  - eexists. split; [reflexivity|]. cbn [arcs arcsPruned].
    assert (Q : Permutation (arc_list (out s)) (arcs g) /\ topological (arc_list (out s)) (arcsPruned g)).
    { split; [apply arc_list_perm, out_full; auto|apply out_topological; auto]. }
    split; [intros _; exact Q|right; exact Q].
  - eexists. split; [reflexivity|]. split; [|left; reflexivity]. intros A. exfalso. apply L.
    assert (n <= length (out s)) by (destruct D as [D|D]; [exact D|apply acyclic_progress; auto]).
    assert (length (out s) <= n); [|lia]. rewrite <- (seq_length n 0). apply NoDup_incl_length; [apply (o_nd s I)|].
    intros i Hi. apply in_seq. pose proof (o_rng s I i Hi). lia.
Qed.
End Order.
