(** Backward dynamic programming over the arcs computes best completions (obtainNbSearchHeurInfo, calcRestScores). *)
From Coq Require Import ZArith List Bool Lia Arith Sorted.
From Verif Require Import WgSpec WgModel WgBase.
Import ListNotations.
Open Scope nat_scope.

Lemma set_finals_spec : forall A (z : A) fs v, Forall (fun s => s < length v) fs ->
  exists v', set_finals z fs v = Some v' /\ length v' = length v /\
    forall j, nth_error v' j = if existsb (Nat.eqb j) fs then (match nth_error v j with Some _ => Some z | None => None end) else nth_error v j.
Proof.
  intros A z fs; induction fs as [|s fs IH]; intros v H; cbn [set_finals existsb].
  - exists v; split; [reflexivity|split; auto].
  - inversion H; subst. destruct (upd_ok _ s (fun _ => z) v H2) as [v1 E]. rewrite E. apply upd_some in E. destruct E as [_ [L N]].
    destruct (IH v1) as [v2 [E2 [L2 N2]]]; [eapply Forall_impl; [|exact H3]; cbn; intros; lia|].
    exists v2. split; [exact E2|split; [lia|]]. intros j. rewrite N2, N.
    destruct (j =? s); destruct (existsb (Nat.eqb j) fs); destruct (nth_error v j); reflexivity.
Qed.
Lemma existsb_In : forall s l, existsb (Nat.eqb s) l = true <-> In s l.
Proof.
  intros s l. rewrite existsb_exists. split.
  - intros [x [Hx E]]. apply Nat.eqb_eq in E. subst; auto.
  - intros H. exists s. split; auto. apply Nat.eqb_refl.
Qed.
Lemma nth_repeat_lt : forall A (x : A) n i, i < n -> nth_error (repeat x n) i = Some x.
Proof. induction n as [|n IH]; intros i H; [lia|]. destruct i; [reflexivity|]. cbn. apply IH. lia. Qed.

Definition tail_abs (ar : list arc) (k : nat) : Z := total_abs (skipn k ar).
Lemma tail_abs_step : forall ar i a, nth_error ar i = Some a -> tail_abs ar i = (Z.abs (a_score a) + tail_abs ar (S i))%Z.
Proof.
  induction ar as [|b ar IH]; intros i a H; [destruct i; discriminate|].
  destruct i as [|i]; cbn in H.
  - injection H as ->. unfold tail_abs, total_abs. reflexivity.
  - apply IH in H. exact H.
Qed.
Lemma tail_abs_nonneg : forall ar k, (0 <= tail_abs ar k)%Z.
Proof.
  intros ar k. unfold tail_abs. induction (skipn k ar) as [|a l IH]; cbn; [lia|]. unfold total_abs in IH. lia.
Qed.
Lemma tail_abs_mono : forall ar d k, (tail_abs ar (k + d) <= tail_abs ar k)%Z.
Proof.
  intros ar d; induction d as [|d IH]; intros k; [rewrite Nat.add_0_r; lia|].
  rewrite <- Nat.add_succ_comm. eapply Z.le_trans; [apply IH|].
  destruct (nth_error ar k) as [a|] eqn:E.
  - rewrite (tail_abs_step _ _ _ E). lia.
  - apply nth_error_None in E. unfold tail_abs. rewrite !skipn_all2 by lia. lia.
Qed.
Lemma pscore_bound : forall ar p k, StronglySorted lt p -> Forall (fun i => k <= i) p -> (Z.abs (pscore ar p) <= tail_abs ar k)%Z.
Proof.
  intros ar p; induction p as [|i p IH]; intros k H1 H2; cbn [pscore]; [apply tail_abs_nonneg|].
  inversion H1 as [|? ? S1 S2]; subst. inversion H2 as [|? ? F1 F2]; subst.
  assert (Q : (Z.abs (pscore ar p) <= tail_abs ar (S i))%Z) by (apply IH; auto).
  assert (M : (tail_abs ar i <= tail_abs ar k)%Z) by (replace i with (k + (i - k)) by lia; apply tail_abs_mono).
  destruct (nth_error ar i) as [a|] eqn:E.
  - rewrite (tail_abs_step _ _ _ E) in M. lia.
  - pose proof (tail_abs_mono ar 1 i) as Q2. rewrite Nat.add_1_r in Q2. lia.
Qed.
Lemma path_score_bound : forall ar pr s p t, topological ar pr -> path ar pr s p t -> (Z.abs (pscore ar p) <= total_abs ar)%Z.
Proof.
  intros ar pr s p t T H. apply (pscore_bound ar p 0).
  - apply (path_increasing ar pr T s p t H).
  - apply Forall_forall; intros; lia.
Qed.

Section DP.
Variable g : wg.
Hypothesis W : wf g.
Hypothesis T : topological (arcs g) (arcsPruned g).
Variable h0 : list Z.
Hypothesis L0 : length h0 = length (states g).
Notation P := (path (arcs g) (arcsPruned g)).
Notation sc := (pscore (arcs g)).
Definition from (k : nat) (p : list nat) : Prop := Forall (fun i => k <= i) p.
Definition value (s : nat) (k : nat) (z : Z) : Prop := exists p t, P s p t /\ from k p /\ z = (sc p + nth t h0 0)%Z.
Definition dp_inv (k : nat) (h : list Z) : Prop :=
  length h = length (states g) /\ forall s, s < length (states g) -> is_max (value s k) (nth s h 0%Z).
Lemma from_mono : forall k k' p, k <= k' -> from k' p -> from k p.
Proof. intros k k' p H F. eapply Forall_impl; [|exact F]. cbn. intros; lia. Qed.
Lemma dp_init : dp_inv (length (arcs g)) h0.
Proof.
  split; [exact L0|]. intros s Hs. split.
  - exists [], s. split; [constructor|split; [constructor|cbn; lia]].
  - intros y [p [t [Hp [F ->]]]]. inversion Hp as [|i a p' t' [Ha _] Hp']; subst; [cbn; lia|].
    inversion F; subst. apply nth_lt in Ha. lia.
Qed.
Lemma value_skip : forall s i z, nth_error (arcsPruned g) i = Some true -> value s i z <-> value s (S i) z.
Proof.
  intros s i z Hpr. split; intros [p [t [Hp [F E]]]]; exists p, t; (split; [exact Hp|split; [|exact E]]).
  - assert (Q : forall j, In j p -> j <> i).
    { clear E F. induction Hp as [s|j a p t Ha Hp IH]; intros k Hk; [destruct Hk|]. destruct Hk as [<-|Hk]; [|auto].
      intros ->. destruct Ha as [_ Ha]. congruence. }
    apply Forall_forall. intros j Hj. unfold from in F. rewrite Forall_forall in F. pose proof (F j Hj). pose proof (Q j Hj). lia.
  - apply (from_mono i (S i)); auto.
Qed.
Lemma dp_skip : forall i h, nth_error (arcsPruned g) i = Some true -> dp_inv (S i) h -> dp_inv i h.
Proof.
  intros i h Hpr [L H]. split; [exact L|]. intros s Hs. destruct (H s Hs) as [H1 H2]. split.
  - apply value_skip; auto.
  - intros y Hy. apply H2. apply value_skip in Hy; auto.
Qed.
(** the value function after taking arc i into account *)
Lemma dp_step : forall i a h h', alive (arcs g) (arcsPruned g) i a -> dp_inv (S i) h -> length h' = length h ->
  (forall j, j < length h -> nth j h' 0%Z = if j =? a_pred a then Z.max (nth j h 0%Z) (a_score a + nth (a_succ a) h 0%Z) else nth j h 0%Z) ->
  dp_inv i h'.
Proof.
  intros i a h h' Ha [L H] Lh' N. split; [lia|]. intros s Hs. rewrite N by lia.
  destruct (wf_ends g W i a (proj1 Ha)) as [Ep Es].
  assert (Hsc : forall q, sc (i :: q) = (a_score a + sc q)%Z) by (intros q; cbn; rewrite (proj1 Ha); reflexivity).
  destruct (H s Hs) as [Hatt Hub]. destruct (H (a_succ a) Es) as [Satt Sub].
  (* a path from s with all arcs >= i either has all arcs > i or starts with i *)
  assert (Split : forall p t, P s p t -> from i p -> from (S i) p \/ exists q, p = i :: q /\ s = a_pred a /\ P (a_succ a) q t /\ from (S i) q).
  { intros p t Hp F. destruct (path_increasing _ _ T _ _ _ Hp) as [Sp _].
    destruct p as [|j q]; [left; constructor|]. inversion Sp as [|? ? S1 S2]; subst. inversion F as [|? ? F1 F2]; subst.
    destruct (Nat.eq_dec j i) as [->|Hne].
    - right. exists q. inversion Hp as [|i' a' p' t' Ha' Hp']; subst.
      assert (a' = a) by (destruct Ha as [A1 _], Ha' as [A2 _]; congruence). subst a'. auto.
    - left. constructor; [lia|]. eapply Forall_impl; [|exact S2]. cbn. intros; lia. }
  destruct (Nat.eqb_spec s (a_pred a)) as [->|Hne].
  - split.
    + destruct (Z.max_spec (nth (a_pred a) h 0%Z) (a_score a + nth (a_succ a) h 0%Z)%Z) as [[_ ->]|[_ ->]].
      * destruct Satt as [p [t [Hp [F E]]]]. exists (i :: p), t. split; [constructor; auto|]. split; [|rewrite Hsc, E; lia].
        constructor; [lia|]. apply (from_mono i (S i)); auto.
      * destruct Hatt as [p [t [Hp [F E]]]]. exists p, t. split; [auto|split; [apply (from_mono i (S i)); auto|auto]].
    + intros y [p [t [Hp [F ->]]]]. destruct (Split p t Hp F) as [F'|[q [-> [_ [Hq Fq]]]]].
      * assert (Q : (sc p + nth t h0 0 <= nth (a_pred a) h 0)%Z) by (apply Hub; exists p, t; auto). lia.
      * assert (Q : (sc q + nth t h0 0 <= nth (a_succ a) h 0)%Z) by (apply Sub; exists q, t; auto). rewrite Hsc. lia.
  - split.
    + destruct Hatt as [p [t [Hp [F E]]]]. exists p, t. split; [auto|split; [apply (from_mono i (S i)); auto|auto]].
    + intros y [p [t [Hp [F ->]]]]. destruct (Split p t Hp F) as [F'|[q [-> [E _]]]]; [|congruence].
      apply Hub. exists p, t. auto.
Qed.
Lemma heur_step_eff : forall i a h, alive (arcs g) (arcsPruned g) i a -> length h = length (states g) ->
  exists h', heur_step i a h = Some h' /\ length h' = length h /\
  (forall j, j < length h -> nth j h' 0%Z = if j =? a_pred a then Z.max (nth j h 0%Z) (a_score a + nth (a_succ a) h 0%Z) else nth j h 0%Z).
Proof.
  intros i a h Ha L. destruct (wf_ends g W i a (proj1 Ha)) as [Ep Es]. unfold heur_step.
  rewrite (nth_error_nth' h 0%Z) by lia. rewrite (nth_error_nth' h 0%Z) by lia.
  destruct (Z.ltb_spec (nth (a_pred a) h 0%Z) (a_score a + nth (a_succ a) h 0%Z)%Z).
  - destruct (upd_ok _ (a_pred a) (fun _ => (a_score a + nth (a_succ a) h 0)%Z) h) as [h' E]; [lia|]. rewrite E.
    apply upd_some in E. destruct E as [_ [L' N]]. exists h'. split; [reflexivity|split; [exact L'|]].
    intros j Hj. specialize (N j). rewrite (nth_error_nth' h' 0%Z) in N by lia. rewrite (nth_error_nth' h 0%Z) in N by lia.
    destruct (Nat.eqb_spec j (a_pred a)) as [Q|Q]; cbn in N; injection N as N; rewrite N; rewrite ?Q; lia.
  - exists h. split; [reflexivity|split; [reflexivity|]]. intros j Hj. destruct (Nat.eqb_spec j (a_pred a)) as [Q|Q]; rewrite ?Q; lia.
Qed.
Lemma heur_loop : exists h, for_arcs g heur_step (bwd g) h0 = Some h /\ dp_inv 0 h.
Proof.
  apply (for_bwd_all g (wf_pr g W) heur_step dp_inv).
  - intros i v _ Hp Hv. apply dp_skip; auto.
  - intros i a v Ha Hv. destruct (heur_step_eff i a v Ha (proj1 Hv)) as [v' [E [L N]]]. exists v'. split; [exact E|].
    apply (dp_step i a v v' Ha Hv L N).
  - apply dp_init.
Qed.
(** calcRestScores clamps at SMALL_SCORE, which has no effect when all initial values are at least SMALL_SCORE *)
Hypothesis G0 : forall s, s < length (states g) -> (SMALL_SCORE <= nth s h0 0)%Z.
Lemma rest_loop : exists h, for_arcs g rest_step (bwd g) h0 = Some h /\ dp_inv 0 h.
Proof.
  assert (Q : exists h, for_arcs g rest_step (bwd g) h0 = Some h /\ dp_inv 0 h /\ forall s, s < length (states g) -> (SMALL_SCORE <= nth s h 0)%Z).
  { apply (for_bwd_all g (wf_pr g W) rest_step (fun k h => dp_inv k h /\ forall s, s < length (states g) -> (SMALL_SCORE <= nth s h 0)%Z)).
    - intros i v _ Hp [Hv G]. split; [apply dp_skip; auto|exact G].
    - intros i a v Ha [Hv G]. destruct (wf_ends g W i a (proj1 Ha)) as [Ep Es].
      destruct (heur_step_eff i a v Ha (proj1 Hv)) as [v' [E [L N]]]. exists v'.
      assert (E' : rest_step i a v = Some v').
      { rewrite <- E. unfold rest_step, heur_step. destruct (nth_error v (a_succ a)) as [hs|] eqn:Q1; [|reflexivity].
        destruct (nth_error v (a_pred a)) as [hp|] eqn:Q2; [|reflexivity].
        pose proof (G _ Ep) as G1. rewrite (nth_error_nth _ _ 0%Z Q2) in G1.
        destruct (Z.ltb_spec (a_score a + hs)%Z SMALL_SCORE); [|reflexivity].
        destruct (Z.ltb_spec hp SMALL_SCORE); [lia|]. destruct (Z.ltb_spec hp (a_score a + hs)%Z); [lia|reflexivity]. }
      split; [exact E'|]. split; [apply (dp_step i a v v' Ha Hv L N)|].
      intros s Hs. rewrite N by (rewrite (proj1 Hv); exact Hs). pose proof (G s Hs). destruct (s =? a_pred a); lia.
    - split; [apply dp_init|exact G0]. }
  destruct Q as [h [E [I _]]]. eauto.
Qed.
End DP.

Definition end_value (fin : Z) (fs : list nat) (t : nat) : Z := if existsb (Nat.eqb t) fs then fin else SMALL_SCORE.
Lemma finals_vec : forall g z, Forall (fun s => s < length (states g)) (finals g) ->
  exists v, set_finals z (finals g) (repeat SMALL_SCORE (length (states g))) = Some v /\ length v = length (states g) /\
    forall t, t < length (states g) -> nth t v 0%Z = end_value z (finals g) t.
Proof.
  intros g z F. destruct (set_finals_spec Z z (finals g) (repeat SMALL_SCORE (length (states g)))) as [v [E [L N]]].
  - rewrite repeat_length. exact F.
  - rewrite repeat_length in L. exists v. split; [exact E|split; [exact L|]]. intros t Ht. specialize (N t).
    rewrite nth_repeat_lt in N by exact Ht. unfold end_value.
    destruct (existsb (Nat.eqb t) (finals g)); apply (nth_error_nth _ _ 0%Z N).
Qed.
Lemma path_end_lt : forall g s p t, wf g -> s < length (states g) -> path (arcs g) (arcsPruned g) s p t -> t < length (states g).
Proof.
  intros g s p t W H Hp. revert H. induction Hp as [s|i a p t Ha Hp IH]; intros H; [exact H|]. apply IH. apply (wf_ends g W i a (proj1 Ha)).
Qed.
(** completions: value of the best path from s, a path ending outside the final states counting as SMALL_SCORE *)
Definition completion (g : wg) (fin : Z) (s : nat) (z : Z) : Prop :=
  exists p t, path (arcs g) (arcsPruned g) s p t /\ z = (pscore (arcs g) p + end_value fin (finals g) t)%Z.
Lemma dp_completion : forall g fin v h, wf g -> length v = length (states g) ->
  (forall t, t < length (states g) -> nth t v 0%Z = end_value fin (finals g) t) -> dp_inv g v 0 h ->
  length h = length (states g) /\ forall s, s < length (states g) -> is_max (completion g fin s) (nth s h 0%Z).
Proof.
  intros g fin v h W L N [Lh H]. split; [exact Lh|]. intros s Hs. destruct (H s Hs) as [[p [t [Hp [_ E]]]] Hub]. split.
  - exists p, t. split; [exact Hp|]. rewrite <- N by (apply (path_end_lt g s p t W Hs Hp)). exact E.
  - intros y [q [u [Hq ->]]]. apply Hub. exists q, u. split; [exact Hq|]. split; [apply Forall_forall; intros; lia|].
    rewrite N by (apply (path_end_lt g s q u W Hs Hq)). reflexivity.
Qed.
Lemma heur_max : forall g, wf g -> topological (arcs g) (arcsPruned g) -> Forall (fun s => s < length (states g)) (finals g) ->
  exists h, obtainNbSearchHeurInfo g = Some h /\ length h = length (states g) /\
    forall s, s < length (states g) -> is_max (completion g 0 s) (nth s h 0%Z).
Proof.
  intros g W T F. destruct (finals_vec g 0%Z F) as [v [E [L N]]]. destruct (heur_loop g W T v L) as [h [Eh I]].
  exists h. unfold obtainNbSearchHeurInfo. rewrite E. split; [exact Eh|]. apply (dp_completion g 0%Z v h W L N I).
Qed.
Lemma rest_max : forall g, wf g -> topological (arcs g) (arcsPruned g) -> Forall (fun s => s < length (states g)) (finals g) ->
  (SMALL_SCORE <= initScore g)%Z ->
  exists h, calcRestScores g = Some h /\ length h = length (states g) /\
    forall s, s < length (states g) -> is_max (completion g (initScore g) s) (nth s h 0%Z).
Proof.
  intros g W T F B. destruct (finals_vec g (initScore g) F) as [v [E [L N]]]. destruct (rest_loop g W T v L) as [h [Eh I]].
  - intros s Hs. rewrite N by exact Hs. unfold end_value. destruct (existsb _ _); lia.
  - exists h. unfold calcRestScores. rewrite E. split; [exact Eh|]. apply (dp_completion g (initScore g) v h W L N I).
Qed.
(** the reading of [completion] in terms of final states *)
Definition to_final (g : wg) (s : nat) (z : Z) : Prop :=
  exists p t, path (arcs g) (arcsPruned g) s p t /\ In t (finals g) /\ z = pscore (arcs g) p.
Lemma completion_final : forall g fin s z, topological (arcs g) (arcsPruned g) -> (SMALL_SCORE + 2 * total_abs (arcs g) < fin)%Z ->
  is_max (completion g fin s) z -> (exists y, to_final g s y) -> is_max (to_final g s) (z - fin).
Proof.
  intros g fin s z T B [[p [t [Hp E]]] Hub] [y [q [u [Hq [Hu ->]]]]].
  assert (Hq' : (pscore (arcs g) q + fin <= z)%Z).
  { apply Hub. exists q, u. split; [exact Hq|]. unfold end_value. rewrite (proj2 (existsb_In u (finals g)) Hu). reflexivity. }
  pose proof (path_score_bound _ _ _ _ _ T Hp) as B1. pose proof (path_score_bound _ _ _ _ _ T Hq) as B2.
  split.
  - exists p, t. split; [exact Hp|]. unfold end_value in E. destruct (existsb (Nat.eqb t) (finals g)) eqn:Q.
    + apply existsb_In in Q. split; [exact Q|]. lia.
    + lia.
  - intros y [p' [t' [Hp' [Ht' ->]]]]. assert (pscore (arcs g) p' + fin <= z)%Z; [|lia]. apply Hub. exists p', t'. split; [exact Hp'|].
    unfold end_value. rewrite (proj2 (existsb_In t' (finals g)) Ht'). reflexivity.
Qed.
Lemma completion_dead : forall g fin s z, topological (arcs g) (arcsPruned g) ->
  is_max (completion g fin s) z -> ~ (exists y, to_final g s y) -> (SMALL_SCORE <= z <= SMALL_SCORE + total_abs (arcs g))%Z.
Proof.
  intros g fin s z T [[p [t [Hp E]]] Hub] Hno. pose proof (path_score_bound _ _ _ _ _ T Hp) as B1. split.
  - assert (Q : (pscore (arcs g) [] + SMALL_SCORE <= z)%Z); [|cbn in Q; lia]. apply Hub. exists [], s. split; [constructor|].
    unfold end_value. destruct (existsb (Nat.eqb s) (finals g)) eqn:Q; [|reflexivity]. apply existsb_In in Q.
    exfalso. apply Hno. exists 0%Z, [], s. split; [constructor|split; [exact Q|reflexivity]].
  - unfold end_value in E. destruct (existsb (Nat.eqb t) (finals g)) eqn:Q; [|lia]. apply existsb_In in Q.
    exfalso. apply Hno. exists (pscore (arcs g) p), p, t. auto.
Qed.
