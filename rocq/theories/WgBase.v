(** Basic facts about the word-graph model: vectors, arc loops, well-formedness of every graph built through the API. *)
From Coq Require Import ZArith List Bool Lia Arith Sorted.
From Verif Require Import WgSpec WgModel.
Import ListNotations.
Open Scope nat_scope.

Ltac dm := match goal with
  | H : context[match ?x with _ => _ end] |- _ => destruct x eqn:?; try discriminate
  end.
Ltac inj := repeat match goal with H : Some _ = Some _ |- _ => injection H as H end.

Lemma upd_some : forall A k (f : A -> A) v v', upd k f v = Some v' ->
  k < length v /\ length v' = length v /\ (forall j, nth_error v' j = if j =? k then option_map f (nth_error v j) else nth_error v j).
Proof.
  intros A k f v; revert k; induction v as [|x v IH]; intros k v' H; destruct k; cbn [upd] in H; try discriminate.
  - injection H as <-. split; [cbn; lia|split; [reflexivity|]]. intros [|j]; reflexivity.
  - dm. injection H as <-. destruct (IH _ _ Heqo) as [H1 [H2 H3]].
    split; [cbn; lia|split; [cbn; lia|]]. intros [|j]; cbn [nth_error]; [reflexivity|]. apply H3.
Qed.
Lemma upd_ok : forall A k (f : A -> A) v, k < length v -> exists v', upd k f v = Some v'.
Proof.
  intros A k f v; revert k; induction v as [|x v IH]; intros k H; [cbn in H; lia|].
  destruct k; cbn [upd]; [eauto|]. destruct (IH k) as [v' E]; [cbn in H; lia|]. rewrite E. eauto.
Qed.
Lemma upd_some_iff : forall A k (f : A -> A) v, k < length v <-> upd k f v <> None.
Proof.
  intros; split; intros H.
  - destruct (upd_ok _ k f v H) as [v' ->]; discriminate.
  - destruct (upd k f v) eqn:E; [|congruence]. apply upd_some in E; tauto.
Qed.
Lemma nth_lt : forall A (l : list A) i x, nth_error l i = Some x -> i < length l.
Proof. intros A l i x H. apply nth_error_Some. rewrite H; discriminate. Qed.
Lemma nth_ex : forall A (l : list A) i, i < length l -> exists x, nth_error l i = Some x.
Proof. intros A l i H. apply nth_error_Some in H. destruct (nth_error l i); [eauto|congruence]. Qed.

(** forward and backward loops over the arcs *)
Lemma for_arcs_app : forall A g (f : nat -> arc -> A -> option A) l1 l2 v,
  for_arcs g f (l1 ++ l2) v = match for_arcs g f l1 v with Some v' => for_arcs g f l2 v' | None => None end.
Proof.
  intros A g f l1; induction l1 as [|i l1 IH]; intros l2 v; [reflexivity|].
  cbn [app for_arcs]. destruct (nth_error (arcsPruned g) i); [|reflexivity].
  destruct (if b then Some v else _); [apply IH|reflexivity].
Qed.
Section Loops.
Context {A : Type}.
Variable g : wg.
Hypothesis Hpr : length (arcsPruned g) = length (arcs g).
Variable f : nat -> arc -> A -> option A.
Variable P : nat -> A -> Prop.
Hypothesis skip : forall i v, i < length (arcs g) -> nth_error (arcsPruned g) i = Some true -> P i v -> P (S i) v.
Hypothesis step : forall i a v, alive (arcs g) (arcsPruned g) i a -> P i v -> exists v', f i a v = Some v' /\ P (S i) v'.
Lemma for_fwd : forall n k v, k + n = length (arcs g) -> P k v -> exists v', for_arcs g f (seq k n) v = Some v' /\ P (k + n) v'.
Proof.
  induction n as [|n IH]; intros k v Hn Hv; [exists v; rewrite Nat.add_0_r; split; [reflexivity|exact Hv]|].
  cbn [seq for_arcs]. destruct (nth_ex _ (arcsPruned g) k) as [b Hb]; [lia|]. rewrite Hb.
  destruct (nth_ex _ (arcs g) k) as [a Ha]; [lia|].
  rewrite <- Nat.add_succ_comm in *.
  destruct b.
  - apply (IH (S k) v Hn). apply skip; auto; lia.
  - rewrite Ha. destruct (step k a v (conj Ha Hb) Hv) as [v' [E Hv']]. rewrite E. apply (IH (S k) v' Hn Hv').
Qed.
Lemma for_fwd_all : forall v, P 0 v -> exists v', for_arcs g f (fwd g) v = Some v' /\ P (length (arcs g)) v'.
Proof. intros v Hv. apply (for_fwd (length (arcs g)) 0 v); auto. Qed.
End Loops.
Section LoopsB.
Context {A : Type}.
Variable g : wg.
Hypothesis Hpr : length (arcsPruned g) = length (arcs g).
Variable f : nat -> arc -> A -> option A.
Variable P : nat -> A -> Prop.
Hypothesis skip : forall i v, i < length (arcs g) -> nth_error (arcsPruned g) i = Some true -> P (S i) v -> P i v.
Hypothesis step : forall i a v, alive (arcs g) (arcsPruned g) i a -> P (S i) v -> exists v', f i a v = Some v' /\ P i v'.
Lemma for_bwd : forall n v, n <= length (arcs g) -> P n v -> exists v', for_arcs g f (rev (seq 0 n)) v = Some v' /\ P 0 v'.
Proof.
  induction n as [|n IH]; intros v Hn Hv; [exists v; split; [reflexivity|exact Hv]|].
  rewrite seq_S, rev_app_distr. cbn [plus rev app]. cbn [for_arcs].
  destruct (nth_ex _ (arcsPruned g) n) as [b Hb]; [lia|]. rewrite Hb.
  destruct (nth_ex _ (arcs g) n) as [a Ha]; [lia|].
  destruct b.
  - apply IH; [lia|]. apply skip; auto.
  - rewrite Ha. destruct (step n a v (conj Ha Hb) Hv) as [v' [E Hv']]. rewrite E. apply IH; [lia|exact Hv'].
Qed.
Lemma for_bwd_all : forall v, P (length (arcs g)) v -> exists v', for_arcs g f (bwd g) v = Some v' /\ P 0 v'.
Proof. intros v Hv. apply (for_bwd (length (arcs g)) v); auto. Qed.
End LoopsB.

(** Well-formedness *)
Definition leaving (ar : list arc) (s : nat) : list nat :=
  filter (fun i => match nth_error ar i with Some a => a_pred a =? s | None => false end) (seq 0 (length ar)).
Definition entering (ar : list arc) (s : nat) : list nat :=
  filter (fun i => match nth_error ar i with Some a => a_succ a =? s | None => false end) (seq 0 (length ar)).
Record wf (g : wg) : Prop := {
  wf_pr : length (arcsPruned g) = length (arcs g);
  wf_cs : length (comps g) = length (arcs g);
  wf_ends : forall i a, nth_error (arcs g) i = Some a -> a_pred a < length (states g) /\ a_succ a < length (states g);
  wf_adj : forall s d, nth_error (states g) s = Some d -> toSucc d = leaving (arcs g) s /\ toPred d = entering (arcs g) s;
  wf_fin : StronglySorted lt (finals g)
}.
Lemma wf_new : wf wg_new.
Proof.
  constructor; cbn; auto.
  - intros [|i] a H; discriminate.
  - intros [|s] d H; discriminate.
  - constructor.
Qed.
Lemma leaving_snoc : forall ar a s, leaving (ar ++ [a]) s = leaving ar s ++ (if a_pred a =? s then [length ar] else []).
Proof.
  intros ar a s. unfold leaving. rewrite app_length. cbn [length]. rewrite Nat.add_1_r, seq_S, filter_app. cbn [plus].
  f_equal.
  - apply filter_ext_in. intros i Hi. apply in_seq in Hi. rewrite nth_error_app1 by lia. reflexivity.
  - cbn [filter]. rewrite nth_error_app2, Nat.sub_diag by lia. cbn [nth_error]. reflexivity.
Qed.
Lemma entering_snoc : forall ar a s, entering (ar ++ [a]) s = entering ar s ++ (if a_succ a =? s then [length ar] else []).
Proof.
  intros ar a s. unfold entering. rewrite app_length. cbn [length]. rewrite Nat.add_1_r, seq_S, filter_app. cbn [plus].
  f_equal.
  - apply filter_ext_in. intros i Hi. apply in_seq in Hi. rewrite nth_error_app1 by lia. reflexivity.
  - cbn [filter]. rewrite nth_error_app2, Nat.sub_diag by lia. cbn [nth_error]. reflexivity.
Qed.
Lemma leaving_none : forall ar s, (forall i a, nth_error ar i = Some a -> a_pred a <> s) -> leaving ar s = [].
Proof.
  intros ar s H. unfold leaving. induction (seq 0 (length ar)) as [|i l IH]; [reflexivity|]. cbn [filter].
  destruct (nth_error ar i) as [a|] eqn:E; [|exact IH]. destruct (a_pred a =? s) eqn:Q; [|exact IH].
  apply Nat.eqb_eq in Q. destruct (H _ _ E Q).
Qed.
Lemma entering_none : forall ar s, (forall i a, nth_error ar i = Some a -> a_succ a <> s) -> entering ar s = [].
Proof.
  intros ar s H. unfold entering. induction (seq 0 (length ar)) as [|i l IH]; [reflexivity|]. cbn [filter].
  destruct (nth_error ar i) as [a|] eqn:E; [|exact IH]. destruct (a_succ a =? s) eqn:Q; [|exact IH].
  apply Nat.eqb_eq in Q. destruct (H _ _ E Q).
Qed.
Lemma nth_repeat : forall A (x : A) n i y, nth_error (repeat x n) i = Some y -> y = x.
Proof. intros A x n i y H. apply nth_error_In in H. apply repeat_spec in H. exact H. Qed.
Lemma wf_addArc : forall g p s w z c g', wf g -> addArc g p s w z c = Some g' ->
  wf g' /\ arcs g' = arcs g ++ [{| a_pred := p; a_succ := s; a_score := z; a_words := w |}] /\
  comps g' = comps g ++ [c] /\ arcsPruned g' = arcsPruned g ++ [false] /\ finals g' = finals g /\ initScore g' = initScore g /\
  length (states g') = Nat.max (length (states g)) (S s) /\ p < length (states g').
Proof.
  intros g p s w z c g' W H. unfold addArc in H.
  set (st0 := states g ++ repeat st_empty (S s - length (states g))) in *.
  assert (L0 : length st0 = Nat.max (length (states g)) (S s)).
  { unfold st0. rewrite app_length, repeat_length. lia. }
  destruct (upd p (add_succ (length (arcs g))) st0) as [st1|] eqn:E1; [|discriminate].
  destruct (upd s (add_pred (length (arcs g))) st1) as [st2|] eqn:E2; [|discriminate].
  injection H as <-. apply upd_some in E1. apply upd_some in E2.
  destruct E1 as [P1 [L1 N1]]. destruct E2 as [P2 [L2 N2]]. cbn [arcs comps arcsPruned finals states].
  assert (A0 : forall k d, nth_error st0 k = Some d -> toSucc d = leaving (arcs g) k /\ toPred d = entering (arcs g) k).
  { intros k d Hd. unfold st0 in Hd. destruct (Nat.lt_ge_cases k (length (states g))) as [Hk|Hk].
    - rewrite nth_error_app1 in Hd by exact Hk. apply (wf_adj g W _ _ Hd).
    - rewrite nth_error_app2 in Hd by exact Hk. apply nth_repeat in Hd. subst d. cbn.
      rewrite leaving_none, entering_none; auto; intros i a Ha; pose proof (wf_ends g W _ _ Ha); lia. }
  split; [|repeat split; auto; try lia; rewrite L2, L1; lia].
  constructor; cbn [arcs comps arcsPruned finals states].
  - rewrite !app_length, (wf_pr g W). reflexivity.
  - rewrite !app_length, (wf_cs g W). reflexivity.
  - intros i a Ha. rewrite L2, L1, L0. destruct (Nat.lt_ge_cases i (length (arcs g))) as [Hi|Hi].
    + rewrite nth_error_app1 in Ha by exact Hi. pose proof (wf_ends g W _ _ Ha). lia.
    + rewrite nth_error_app2 in Ha by exact Hi. destruct (i - length (arcs g)) as [|q]; cbn in Ha; [|destruct q; discriminate].
      injection Ha as <-. cbn. lia.
  - intros k d Hd. rewrite leaving_snoc, entering_snoc. cbn [a_pred a_succ]. rewrite N2, N1 in Hd.
    destruct (nth_error st0 k) as [d0|] eqn:D0; [|destruct (k =? s), (k =? p); discriminate].
    destruct (A0 _ _ D0) as [Q1 Q2]. rewrite (Nat.eqb_sym p k), (Nat.eqb_sym s k).
    destruct (k =? s), (k =? p); cbn in Hd; injection Hd as <-; cbn; rewrite ?Q1, ?Q2, ?app_nil_r; auto.
  - apply (wf_fin g W).
Qed.
Lemma set_insert_In : forall l x y, In y (set_insert x l) <-> y = x \/ In y l.
Proof.
  induction l as [|z l IH]; intros x y; cbn [set_insert In]; [split; intros [H|H]; auto|].
  destruct (x <? z) eqn:E1; [cbn; split; intros [H|H]; auto|]. destruct (x =? z) eqn:E2.
  - apply Nat.eqb_eq in E2; subst. cbn [In]. split; [tauto|]. intros [->|H]; auto.
  - cbn. rewrite IH. tauto.
Qed.
Lemma set_insert_sorted : forall l x, StronglySorted lt l -> StronglySorted lt (set_insert x l).
Proof.
  induction l as [|z l IH]; intros x H; cbn [set_insert]; [repeat constructor|].
  inversion H as [|? ? H1 H2]; subst. destruct (Nat.ltb_spec x z); [constructor; auto; constructor; auto; eapply Forall_impl; [|exact H2]; cbn; intros; lia|].
  destruct (Nat.eqb_spec x z); [auto|]. constructor; [apply IH; auto|]. apply Forall_forall. intros y Hy.
  apply set_insert_In in Hy. destruct Hy as [->|Hy]; [lia|]. rewrite Forall_forall in H2. apply H2; auto.
Qed.
Lemma prune_ids_len : forall g pv rs lm ids st st', prune_ids g pv rs lm ids st = Some st' -> length (fst st') = length (fst st).
Proof.
  intros g pv rs lm ids; induction ids as [|i r IH]; intros st st' H; cbn in H; [congruence|].
  destruct (nth_error (arcs g) i) as [a|]; [|discriminate]. destruct (nth_error pv (a_pred a)); [|discriminate].
  destruct (nth_error rs (a_succ a)); [|discriminate]. destruct (upd i _ (fst st)) as [pr|] eqn:E; [|discriminate].
  apply IH in H. cbn in H. apply upd_some in E. lia.
Qed.
Lemma prune_states_len : forall g pv rs lm ds st st', prune_states g pv rs lm ds st = Some st' -> length (fst st') = length (fst st).
Proof.
  intros g pv rs lm ds; induction ds as [|i r IH]; intros st st' H; cbn in H; [congruence|].
  dm. apply IH in H. apply prune_ids_len in Heqo. lia.
Qed.
Lemma wf_change_pruned : forall g pr, wf g -> length pr = length (arcs g) ->
  wf {| arcs := arcs g; arcsPruned := pr; states := states g; finals := finals g; comps := comps g; initScore := initScore g |}.
Proof. intros g pr W L. constructor; cbn; auto; apply W. Qed.
Lemma pruneArcs_inv : forall g lt g' n, wf g -> pruneArcs g lt = Some (g', n) ->
  wf g' /\ arcs g' = arcs g /\ states g' = states g /\ finals g' = finals g /\ comps g' = comps g /\ initScore g' = initScore g.
Proof.
  intros g lt g' n W H. unfold pruneArcs in H.
  destruct (calcRestScores g) as [rs|]; [|discriminate]. destruct (calcPrevScores g INITIAL_STATE []) as [ps|]; [|discriminate].
  destruct (best_final (prev ps) (finals g) (SMALL_SCORE, INITIAL_STATE)) as [b|]; [|discriminate].
  destruct (prune_states _ _ _ _ _ _) as [st|] eqn:E; [|discriminate]. injection H as <- <-.
  split; [|cbn; auto]. apply wf_change_pruned; auto. apply prune_states_len in E. cbn in E. rewrite E. apply (wf_pr g W).
Qed.
Lemma wf_op : forall o g g', wf g -> wg_op o g = Some g' -> wf g'.
Proof.
  intros o g g' W H. destruct o; cbn [wg_op] in H.
  - apply (wf_addArc g) in H; tauto.
  - injection H as <-. constructor; cbn; try apply W. apply set_insert_sorted, W.
  - injection H as <-. constructor; cbn; apply W.
  - destruct (pruneArcs g lt) as [[g1 n]|] eqn:E; [|discriminate]. injection H as <-. apply pruneArcs_inv in E; tauto.
  - injection H as <-. apply wf_change_pruned; auto. rewrite map_length. apply (wf_pr g W).
Qed.
Lemma wf_run : forall ops g g', wf g -> wg_run ops g = Some g' -> wf g'.
Proof.
  induction ops as [|o ops IH]; intros g g' W H; cbn in H; [congruence|].
  destruct (wg_op o g) as [g1|] eqn:E; [|discriminate]. apply (IH g1); auto. apply (wf_op o g); auto.
Qed.
Lemma not_pruned_spec : forall pr ids, (forall i, In i ids -> i < length pr) ->
  not_pruned pr ids = Some (filter (fun i => negb (nth i pr true)) ids).
Proof.
  intros pr ids; induction ids as [|i r IH]; intros H; [reflexivity|]. cbn [not_pruned filter].
  destruct (nth_ex _ pr i) as [b Hb]; [apply H; left; auto|]. rewrite Hb, IH by (intros; apply H; right; auto).
  rewrite (nth_error_nth _ _ true Hb). destruct b; reflexivity.
Qed.
Lemma leaving_In : forall ar s i, In i (leaving ar s) <-> exists a, nth_error ar i = Some a /\ a_pred a = s.
Proof.
  intros ar s i. unfold leaving. rewrite filter_In, in_seq. split.
  - intros [_ H]. destruct (nth_error ar i) as [a|]; [|discriminate]. apply Nat.eqb_eq in H. eauto.
  - intros [a [Ha Hs]]. rewrite Ha. split; [apply nth_lt in Ha; lia|apply Nat.eqb_eq; auto].
Qed.
Lemma entering_In : forall ar s i, In i (entering ar s) <-> exists a, nth_error ar i = Some a /\ a_succ a = s.
Proof.
  intros ar s i. unfold entering. rewrite filter_In, in_seq. split.
  - intros [_ H]. destruct (nth_error ar i) as [a|]; [|discriminate]. apply Nat.eqb_eq in H. eauto.
  - intros [a [Ha Hs]]. rewrite Ha. split; [apply nth_lt in Ha; lia|apply Nat.eqb_eq; auto].
Qed.
(** non-pruned arcs leaving / entering a state *)
Lemma getSucc_spec : forall g s, wf g ->
  getArcIdsToSuccStates g s = Some (filter (fun i => negb (nth i (arcsPruned g) true)) (leaving (arcs g) s)).
Proof.
  intros g s W. unfold getArcIdsToSuccStates. destruct (nth_error (states g) s) as [d|] eqn:E.
  - rewrite (proj1 (wf_adj g W _ _ E)). apply not_pruned_spec. intros i Hi. apply leaving_In in Hi. destruct Hi as [a [Ha _]].
    apply nth_lt in Ha. rewrite (wf_pr g W). exact Ha.
  - rewrite leaving_none; [reflexivity|]. intros i a Ha Hs. apply nth_error_None in E. pose proof (wf_ends g W _ _ Ha). lia.
Qed.
Lemma getPred_spec : forall g s, wf g ->
  getArcIdsToPredStates g s = Some (filter (fun i => negb (nth i (arcsPruned g) true)) (entering (arcs g) s)).
Proof.
  intros g s W. unfold getArcIdsToPredStates. destruct (nth_error (states g) s) as [d|] eqn:E.
  - rewrite (proj2 (wf_adj g W _ _ E)). apply not_pruned_spec. intros i Hi. apply entering_In in Hi. destruct Hi as [a [Ha _]].
    apply nth_lt in Ha. rewrite (wf_pr g W). exact Ha.
  - rewrite entering_none; [reflexivity|]. intros i a Ha Hs. apply nth_error_None in E. pose proof (wf_ends g W _ _ Ha). lia.
Qed.
Lemma alive_nth : forall pr i, nth i pr true = false <-> nth_error pr i = Some false.
Proof.
  intros pr i. split; intros H.
  - destruct (nth_error pr i) as [b|] eqn:E; [rewrite (nth_error_nth _ _ true E) in H; congruence|].
    apply nth_error_None in E. rewrite nth_overflow in H by exact E. discriminate.
  - apply (nth_error_nth _ _ true H).
Qed.
Lemma succ_ids_In : forall g s ids, wf g -> getArcIdsToSuccStates g s = Some ids ->
  forall i, In i ids <-> exists a, alive (arcs g) (arcsPruned g) i a /\ a_pred a = s.
Proof.
  intros g s ids W H i. rewrite getSucc_spec in H by exact W. injection H as <-. rewrite filter_In, leaving_In, negb_true_iff, alive_nth.
  unfold alive. split; [intros [[a [H1 H2]] H3]; eauto|intros [a [[H1 H3] H2]]; eauto].
Qed.
Lemma pred_ids_In : forall g s ids, wf g -> getArcIdsToPredStates g s = Some ids ->
  forall i, In i ids <-> exists a, alive (arcs g) (arcsPruned g) i a /\ a_succ a = s.
Proof.
  intros g s ids W H i. rewrite getPred_spec in H by exact W. injection H as <-. rewrite filter_In, entering_In, negb_true_iff, alive_nth.
  unfold alive. split; [intros [[a [H1 H2]] H3]; eauto|intros [a [[H1 H3] H2]]; eauto].
Qed.
(** paths *)
Section Paths.
Variables (ar : list arc) (pr : list bool).
Lemma path_app : forall s p t q u, path ar pr s p t -> path ar pr t q u -> path ar pr s (p ++ q) u.
Proof. intros s p t q u H; revert q u; induction H; intros q u Hq; [exact Hq|]. cbn. constructor; auto. Qed.
Lemma path_app_inv : forall p s q u, path ar pr s (p ++ q) u -> exists t, path ar pr s p t /\ path ar pr t q u.
Proof.
  induction p as [|i p IH]; intros s q u H; cbn in H; [exists s; split; [constructor|exact H]|].
  inversion H as [|i' a' p' t' Ha Hp]; subst. destruct (IH _ _ _ Hp) as [t [P1 P2]]. exists t. split; [constructor; auto|auto].
Qed.
Lemma path_det : forall s p t t', path ar pr s p t -> path ar pr s p t' -> t = t'.
Proof.
  intros s p t t' H; revert t'; induction H as [s|i a p t Ha Hp IH]; intros t' H'; inversion H' as [|i' a' p' t'' Ha' Hp' E1]; subst; auto.
  destruct Ha as [H1 _], Ha' as [H2 _]. rewrite H2 in H1. injection H1 as ->. auto.
Qed.
Lemma pscore_app : forall p q, pscore ar (p ++ q) = (pscore ar p + pscore ar q)%Z.
Proof. induction p as [|i p IH]; intros q; cbn; [reflexivity|]. rewrite IH. lia. Qed.
Hypothesis topo : topological ar pr.
Lemma path_increasing : forall s p t, path ar pr s p t -> StronglySorted lt p /\
  forall i, In i p -> forall k b, alive ar pr k b -> a_succ b = s -> k < i.
Proof.
  intros s p t H; induction H as [s|i a p t Ha Hp [IH1 IH2]]; [split; [constructor|intros i []]|].
  split.
  - constructor; auto. apply Forall_forall. intros j Hj. apply (IH2 j Hj i a Ha eq_refl).
  - intros j [->|Hj] k b Hb Hs; [apply (topo k j b a); auto|].
    assert (i < j) by (apply (IH2 j Hj i a Ha eq_refl)). assert (k < i) by (apply (topo k i b a); auto). lia.
Qed.
End Paths.
