(** calcPrevScores, bestPathFromFinalStateToIdx and pruneArcsToPredStates *)
From Coq Require Import ZArith List Bool Lia Arith Sorted Permutation.
From Verif Require Import WgSpec WgModel WgBase WgHeurProofs WgUsefulProofs.
Import ListNotations.
Open Scope nat_scope.

Lemma nth_upd_const : forall A k (x d : A) v v' j, upd k (fun _ => x) v = Some v' -> j < length v ->
  nth j v' d = if j =? k then x else nth j v d.
Proof.
  intros A k x d v v' j H Hj. apply upd_some in H. destruct H as [Hk [L N]]. specialize (N j).
  rewrite (nth_error_nth' v' d), (nth_error_nth' v d) in N by lia. destruct (j =? k); cbn in N; congruence.
Qed.
Section Prev.
Variable g : wg.
Hypothesis W : wf g.
Hypothesis T : topological (arcs g) (arcsPruned g).
Hypothesis NE : arcs g <> [].
Variable s0 : nat.
Hypothesis Hs0 : s0 < length (states g).
Variable excl : list nat.
Notation P := (path (arcs g) (arcsPruned g)).
Notation sc := (pscore (arcs g)).
Notation N := (length (states g)).
Notation n := (length (arcs g)).
Definition base : Z := if Nat.eqb s0 INITIAL_STATE then initScore g else 0%Z.
Definition tot : Z := total_abs (arcs g).
Hypothesis B : (SMALL_SCORE + 2 * tot < base)%Z.
Definition avoid (p : list nat) : Prop := Forall (fun i => ~ In i excl) p.
Definition below (k : nat) (p : list nat) : Prop := Forall (fun i => i < k) p.
Notation pv s k := (nth k (prev s) 0%Z).
Record pinv (k : nat) (s : pst) : Prop := {
  p_l1 : length (prev s) = N; p_l2 : length (best s) = N; p_l3 : length (access s) = N;
  p_small : forall x, x < N -> (SMALL_SCORE <= pv s x)%Z;
  p_acc : forall x, x < N -> (nth x (access s) false = true <-> exists p, P s0 p x /\ below k p);
  p_noacc : forall x, x < N -> nth x (access s) false = false -> pv s x = SMALL_SCORE;
  p_ub : forall x p, P s0 p x -> below k p -> avoid p -> (base + sc p <= pv s x)%Z;
  p_att : forall x, x < N -> (exists p, P s0 p x /\ avoid p /\ pv s x = (base + sc p)%Z) \/ (exists u p, P u p x /\ pv s x = (SMALL_SCORE + sc p)%Z);
  p_start : pv s s0 = base;
  p_best : forall x i, x < N -> nth x (best s) None = Some i -> exists a, alive (arcs g) (arcsPruned g) i a /\ i < k /\ ~ In i excl /\ a_succ a = x /\ pv s x = (a_score a + pv s (a_pred a))%Z;
  p_set : forall x, x < N -> x <> s0 -> (SMALL_SCORE < pv s x)%Z -> nth x (best s) None <> None
}.
Lemma no_cycle : forall x p, P x p x -> p = [].
Proof.
  intros x p H. destruct p as [|i p]; [reflexivity|]. exfalso. assert (H' := H).
  destruct (@exists_last _ (i :: p)) as [q [j E]]; [discriminate|]. rewrite E in H'. apply path_app_inv in H'. destruct H' as [u [_ H']].
  inversion H' as [|j' b p' t' Hb Hp']; subst. assert (Eb : a_succ b = x) by (inversion Hp'; congruence).
  destruct (path_increasing _ _ T _ _ _ H) as [_ Q]. assert (j < j); [|lia]. apply (Q j) with (b := b); [rewrite E; apply in_or_app; right; left; auto|exact Hb|exact Eb].
Qed.
Lemma base_small : (SMALL_SCORE < base)%Z.
Proof. pose proof (tail_abs_nonneg (arcs g) 0). unfold tail_abs in H. cbn [skipn] in H. unfold tot in B. lia. Qed.
Lemma tot_nonneg : (0 <= tot)%Z.
Proof. pose proof (tail_abs_nonneg (arcs g) 0) as H. unfold tail_abs in H. cbn [skipn] in H. exact H. Qed.
Lemma start_pinv : exists s, pinv 0 s /\ calcPrevScores g s0 excl = for_arcs g (prev_step excl) (fwd g) s.
Proof.
  unfold calcPrevScores. destruct (arcs g) as [|a0 l0] eqn:Ear; [congruence|]. rewrite <- Ear in *.
  destruct (upd_ok _ s0 (fun _ => if Nat.eqb s0 INITIAL_STATE then initScore g else 0%Z) (repeat SMALL_SCORE N)) as [pv0 E1]; [rewrite repeat_length; exact Hs0|].
  destruct (upd_ok _ s0 (fun _ => true) (repeat false N)) as [ac0 E2]; [rewrite repeat_length; exact Hs0|].
  rewrite E1, E2. eexists. split; [|reflexivity].
  assert (Q1 : forall x, x < N -> nth x pv0 0%Z = if x =? s0 then base else SMALL_SCORE).
  { intros x Hx. rewrite (nth_upd_const _ _ _ 0%Z _ _ x E1) by (rewrite repeat_length; exact Hx).
    rewrite (nth_error_nth _ _ 0%Z (nth_repeat_lt Z SMALL_SCORE N x Hx)). reflexivity. }
  assert (Q2 : forall x, x < N -> nth x ac0 false = (x =? s0)).
  { intros x Hx. rewrite (nth_upd_const _ _ _ false _ _ x E2) by (rewrite repeat_length; exact Hx).
    rewrite (nth_error_nth _ _ false (nth_repeat_lt bool false N x Hx)). destruct (x =? s0); reflexivity. }
  apply upd_some in E1. destruct E1 as [_ [L1 _]]. rewrite repeat_length in L1. apply upd_some in E2. destruct E2 as [_ [L2 _]]. rewrite repeat_length in L2.
  pose proof base_small as BS.
  assert (Q3 : forall x, nth x (repeat (@None nat) N) None = None).
  { intros x. destruct (Nat.lt_ge_cases x N); [rewrite (nth_error_nth _ _ None (nth_repeat_lt _ None N x H)); reflexivity|]. apply nth_overflow. rewrite repeat_length. lia. }
  constructor; cbn [prev best access].
  - exact L1.
  - apply repeat_length.
  - exact L2.
  - intros x Hx. rewrite Q1 by exact Hx. destruct (x =? s0); lia.
  - intros x Hx. rewrite Q2 by exact Hx. split.
    + intros E. apply Nat.eqb_eq in E. subst x. exists []. split; constructor.
    + intros [p [Hp Bp]]. destruct p as [|i p]; [inversion Hp; subst; apply Nat.eqb_refl|inversion Bp; lia].
  - intros x Hx E. rewrite Q2 in E by exact Hx. rewrite Q1, E by exact Hx. reflexivity.
  - intros x p Hp Bp _. destruct p as [|i p]; [|inversion Bp; lia]. inversion Hp; subst. rewrite Q1, Nat.eqb_refl by exact Hs0. cbn. lia.
  - intros x Hx. rewrite Q1 by exact Hx. destruct (Nat.eqb_spec x s0) as [->|].
    + left. exists []. split; [constructor|]. split; [constructor|]. cbn. lia.
    + right. exists x, []. split; [constructor|]. cbn. lia.
  - rewrite Q1, Nat.eqb_refl by exact Hs0. reflexivity.
  - intros x i Hx E. rewrite Q3 in E. discriminate.
  - intros x Hx Hne Hlt. rewrite Q1 in Hlt by exact Hx. destruct (Nat.eqb_spec x s0); [congruence|lia].
Qed.
Lemma below_S : forall k p, below k p -> below (S k) p.
Proof. intros k p H. eapply Forall_impl; [|exact H]. cbn; intros; lia. Qed.
Lemma below_split : forall k x p, P s0 p x -> below (S k) p -> below k p \/ exists q a, p = q ++ [k] /\ alive (arcs g) (arcsPruned g) k a /\ P s0 q (a_pred a) /\ a_succ a = x /\ below k q.
Proof.
  intros k x p Hp Bp. destruct (in_dec Nat.eq_dec k p) as [Hin|Hnot]; [right; apply (last_arc g T s0 p x k Hp Bp Hin)|].
  left. apply Forall_forall. intros j Hj. unfold below in Bp. rewrite Forall_forall in Bp. pose proof (Bp j Hj). assert (j <> k) by congruence. lia.
Qed.
Lemma pinv_skip : forall k s, nth_error (arcsPruned g) k = Some true -> pinv k s -> pinv (S k) s.
Proof.
  intros k s Hpr I. assert (Eq : forall x p, P s0 p x -> below (S k) p -> below k p).
  { intros x p Hp Bp. destruct (below_split k x p Hp Bp) as [Q|[q [a [_ [[_ Ha] _]]]]]; [exact Q|congruence]. }
  destruct I. constructor; auto.
  - intros x Hx. rewrite p_acc0 by exact Hx. split; intros [p [Hp Bp]]; exists p; split; auto; [apply below_S; auto|eauto].
  - intros x p Hp Bp Ap. apply p_ub0; eauto.
  - intros x i Hx E. destruct (p_best0 x i Hx E) as [a [Q1 [Q2 Q3]]]. exists a. split; [exact Q1|]. split; [lia|exact Q3].
Qed.
Lemma pinv_step : forall k a s, alive (arcs g) (arcsPruned g) k a -> pinv k s -> exists s', prev_step excl k a s = Some s' /\ pinv (S k) s'.
Proof.
  intros k a s Ha I. destruct (wf_ends g W k a (proj1 Ha)) as [Ep Es]. unfold prev_step.
  pose proof (p_l1 k s I) as L1. pose proof (p_l2 k s I) as L2. pose proof (p_l3 k s I) as L3.
  rewrite (nth_error_nth' (access s) false) by lia. rewrite (nth_error_nth' (prev s) 0%Z) by lia.
  assert (Hka : forall q b, q = k -> alive (arcs g) (arcsPruned g) q b -> b = a) by (intros q b -> [Hb _]; destruct Ha; congruence).
  destruct (nth (a_pred a) (access s) false) eqn:Eacc.
  - pose proof (proj1 (p_acc k s I _ Ep) Eacc) as [q0 [Hq0 Bq0]].
    rewrite (nth_error_nth' (prev s) 0%Z) by lia.
    destruct (upd_ok _ (a_succ a) (fun _ => true) (access s)) as [ac' Ea]; [lia|]. rewrite Ea.
    set (score := let score := if existsb (Nat.eqb k) excl then SMALL_SCORE else (a_score a + pv s (a_pred a))%Z in if (score <? SMALL_SCORE)%Z then SMALL_SCORE else score).
    assert (Hs_ne : a_succ a <> s0).
    { intros E. assert (q0 ++ [k] = []); [|destruct q0; discriminate]. apply (no_cycle s0).
      apply (path_app _ _ s0 q0 (a_pred a) [k] s0 Hq0). rewrite <- E. constructor; [exact Ha|constructor]. }
    assert (Hps_ne : a_pred a <> a_succ a).
    { intros E. assert ([k] = []); [|discriminate]. apply (no_cycle (a_pred a)). rewrite E at 2. constructor; [exact Ha|constructor]. }
    assert (La : length ac' = N) by (apply upd_some in Ea; lia).
    assert (Acc : forall x, x < N -> (nth x ac' false = true <-> exists p, P s0 p x /\ below (S k) p)).
    { intros x Hx. rewrite (nth_upd_const _ _ _ false _ _ x Ea) by lia. destruct (Nat.eqb_spec x (a_succ a)) as [->|Hne].
      - split; [intros _|auto]. exists (q0 ++ [k]). split; [eapply path_app; [exact Hq0|constructor; [exact Ha|constructor]]|].
        apply Forall_app. split; [apply below_S; exact Bq0|constructor; [lia|constructor]].
      - rewrite (p_acc k s I x Hx). split; intros [p [Hp Bp]]; exists p; (split; [exact Hp|]); [apply below_S; exact Bp|].
        destruct (below_split k x p Hp Bp) as [Q|[q [b [_ [Hb [_ [Eb _]]]]]]]; [exact Q|]. rewrite (Hka k b eq_refl Hb) in Eb. congruence. }
    assert (Sc_ge : (SMALL_SCORE <= score)%Z).
    { unfold score. cbv zeta. destruct (Z.ltb_spec (if existsb (Nat.eqb k) excl then SMALL_SCORE else (a_score a + pv s (a_pred a))%Z) SMALL_SCORE); lia. }
    assert (Sc_al : ~ In k excl -> (a_score a + pv s (a_pred a) <= score)%Z).
    { intros Hn. unfold score. cbv zeta. assert (E : existsb (Nat.eqb k) excl = false).
      { destruct (existsb (Nat.eqb k) excl) eqn:Q; [apply existsb_In in Q; contradiction|reflexivity]. }
      rewrite E. destruct (Z.ltb_spec (a_score a + pv s (a_pred a))%Z SMALL_SCORE); lia. }
    assert (Sc_big : (SMALL_SCORE < score)%Z -> ~ In k excl /\ score = (a_score a + pv s (a_pred a))%Z).
    { unfold score. cbv zeta. destruct (existsb (Nat.eqb k) excl) eqn:Q.
      - destruct (Z.ltb_spec SMALL_SCORE SMALL_SCORE); lia.
      - destruct (Z.ltb_spec (a_score a + pv s (a_pred a))%Z SMALL_SCORE); [lia|]. intros _. split; [|reflexivity]. intros Hin. apply existsb_In in Hin. congruence. }
    (* upper bound for new paths, stated on the maximum *)
    assert (UB : forall x p, P s0 p x -> below (S k) p -> avoid p -> (base + sc p <= (if Nat.eqb x (a_succ a) then Z.max (pv s x) score else pv s x))%Z).
    { intros x p Hp Bp Ap. destruct (below_split k x p Hp Bp) as [Q|[q [b [-> [Hb [Hq [Eb Bq]]]]]]].
      - pose proof (p_ub k s I x p Hp Q Ap). destruct (x =? a_succ a); lia.
      - rewrite (Hka k b eq_refl Hb) in *. subst x. rewrite Nat.eqb_refl. apply Forall_app in Ap. destruct Ap as [Aq Ak]. inversion Ak; subst.
        pose proof (p_ub k s I _ q Hq Bq Aq). pose proof (Sc_al H1). rewrite pscore_app. cbn [pscore]. rewrite (proj1 Ha). lia. }
    assert (Nacc_s : forall x, x < N -> nth x ac' false = false -> nth x (access s) false = false /\ x <> a_succ a).
    { intros x Hx E. rewrite (nth_upd_const _ _ _ false _ _ x Ea) in E by lia. destruct (Nat.eqb_spec x (a_succ a)); [discriminate|auto]. }
    (* back-pointers already set point to arcs that do not start at the state being updated *)
    assert (Stable : forall i b, alive (arcs g) (arcsPruned g) i b -> i < k -> a_pred b <> a_succ a).
    { intros i b Hb Hi E. assert (k < i) by (apply (T k i a b Ha Hb); congruence). lia. }
    destruct (Z.ltb_spec (pv s (a_succ a)) score) as [Hlt|Hge].
    + destruct (upd_ok _ (a_succ a) (fun _ => score) (prev s)) as [pr' E1]; [lia|]. rewrite E1.
      destruct (upd_ok _ (a_succ a) (fun _ => Some k) (best s)) as [be' E2]; [lia|]. rewrite E2.
      eexists. split; [reflexivity|].
      pose proof (p_small k s I (a_succ a) Es) as Sm. destruct (Sc_big ltac:(lia)) as [Hnex Hsc].
      assert (Npr : forall x, x < N -> nth x pr' 0%Z = if x =? a_succ a then score else pv s x) by (intros x Hx; apply (nth_upd_const _ _ _ 0%Z _ _ x E1); lia).
      assert (Nbe : forall x, x < N -> nth x be' None = if x =? a_succ a then Some k else nth x (best s) None) by (intros x Hx; apply (nth_upd_const _ _ _ None _ _ x E2); lia).
      apply upd_some in E1. destruct E1 as [_ [Lp _]]. apply upd_some in E2. destruct E2 as [_ [Lb _]].
      constructor; cbn [prev best access].
      * lia.
      * lia.
      * exact La.
      * intros x Hx. rewrite Npr by exact Hx. destruct (x =? a_succ a); [lia|apply (p_small k s I x Hx)].
      * exact Acc.
      * intros x Hx E. destruct (Nacc_s x Hx E) as [A1 A2]. rewrite Npr by exact Hx. destruct (Nat.eqb_spec x (a_succ a)); [congruence|]. apply (p_noacc k s I x Hx A1).
      * intros x p Hp Bp Ap. pose proof (path_end_lt g s0 p x W Hs0 Hp) as Hx. rewrite Npr by exact Hx. pose proof (UB x p Hp Bp Ap) as Q.
        destruct (Nat.eqb_spec x (a_succ a)) as [->|]; lia.
      * intros x Hx. rewrite Npr by exact Hx. destruct (Nat.eqb_spec x (a_succ a)) as [->|].
        -- destruct (p_att k s I (a_pred a) Ep) as [[p [Hp [Ap E]]]|[u [p [Hp E]]]].
           ++ left. exists (p ++ [k]). split; [eapply path_app; [exact Hp|constructor; [exact Ha|constructor]]|]. split.
              ** apply Forall_app. split; [exact Ap|constructor; [exact Hnex|constructor]].
              ** rewrite Hsc, E, pscore_app. cbn [pscore]. rewrite (proj1 Ha). lia.
           ++ right. exists u, (p ++ [k]). split; [eapply path_app; [exact Hp|constructor; [exact Ha|constructor]]|].
              rewrite Hsc, E, pscore_app. cbn [pscore]. rewrite (proj1 Ha). lia.
        -- apply (p_att k s I x Hx).
      * rewrite Npr by exact Hs0. destruct (Nat.eqb_spec s0 (a_succ a)); [congruence|]. apply (p_start k s I).
      * intros x i Hx E. rewrite Nbe in E by exact Hx. rewrite Npr by exact Hx. destruct (Nat.eqb_spec x (a_succ a)) as [->|Hne].
        -- injection E as <-. exists a. split; [exact Ha|]. split; [lia|]. split; [exact Hnex|]. split; [reflexivity|].
           rewrite Npr by exact Ep. destruct (Nat.eqb_spec (a_pred a) (a_succ a)); [congruence|]. exact Hsc.
        -- destruct (p_best k s I x i Hx E) as [b [Q1 [Q2 [Q3 [Q4 Q5]]]]]. exists b. split; [exact Q1|]. split; [lia|]. split; [exact Q3|]. split; [exact Q4|].
           rewrite Npr by (apply (wf_ends g W i b (proj1 Q1))). destruct (Nat.eqb_spec (a_pred b) (a_succ a)) as [Q|]; [destruct (Stable i b Q1 Q2 Q)|]. exact Q5.
      * intros x Hx Hne Hb. rewrite Nbe by exact Hx. rewrite Npr in Hb by exact Hx. destruct (x =? a_succ a); [discriminate|]. apply (p_set k s I x Hx Hne Hb).
    + eexists. split; [reflexivity|]. constructor; cbn [prev best access]; try (apply I).
      * exact La.
      * exact Acc.
      * intros x Hx E. destruct (Nacc_s x Hx E) as [A1 A2]. apply (p_noacc k s I x Hx A1).
      * intros x p Hp Bp Ap. pose proof (UB x p Hp Bp Ap) as Q. destruct (Nat.eqb_spec x (a_succ a)) as [->|]; lia.
      * intros x i Hx E. destruct (p_best k s I x i Hx E) as [b [Q1 [Q2 Q3]]]. exists b. split; [exact Q1|]. split; [lia|exact Q3].
  - assert (NoNew : forall x p, P s0 p x -> below (S k) p -> below k p).
    { intros x p Hp Bp. destruct (below_split k x p Hp Bp) as [Q|[q [b [_ [Hb [Hq [_ Bq]]]]]]]; [exact Q|].
      rewrite (Hka k b eq_refl Hb) in *. assert (nth (a_pred a) (access s) false = true) by (apply (p_acc k s I _ Ep); eauto). congruence. }
    assert (I' : pinv (S k) s).
    { destruct I. constructor; auto.
      - intros x Hx. rewrite p_acc0 by exact Hx. split; intros [p [Hp Bp]]; exists p; split; auto; [apply below_S; auto|eauto].
      - intros x p Hp Bp Ap. apply p_ub0; eauto.
      - intros x i Hx E. destruct (p_best0 x i Hx E) as [b [Q1 [Q2 Q3]]]. exists b. split; [exact Q1|]. split; [lia|exact Q3]. }
    rewrite (nth_error_nth' (access s) false) by lia. destruct (nth (a_succ a) (access s) false) eqn:E2; [exists s; auto|].
    destruct (upd_ok _ (a_succ a) (fun _ => SMALL_SCORE) (prev s)) as [pr' E1]; [lia|]. rewrite E1. eexists. split; [reflexivity|].
    assert (Same : pr' = prev s).
    { apply nth_ext with (d := 0%Z) (d' := 0%Z); [apply upd_some in E1; lia|]. intros x Hx. assert (Lp : length pr' = N) by (apply upd_some in E1; lia).
      rewrite (nth_upd_const _ _ _ 0%Z _ _ x E1) by lia. destruct (Nat.eqb_spec x (a_succ a)) as [->|]; [|reflexivity].
      symmetry. apply (p_noacc k s I _ Es E2). }
    rewrite Same. destruct s; exact I'.
Qed.
Lemma prev_result : exists s, calcPrevScores g s0 excl = Some s /\ pinv n s.
Proof.
  destruct start_pinv as [s [I E]]. rewrite E. apply (for_fwd_all g (wf_pr g W) (prev_step excl) pinv); auto.
  - intros i v _ Hp Hv. apply pinv_skip; auto.
  - intros i a v Ha Hv. apply pinv_step; auto.
Qed.
(** legitimate states: reached from s0 by non-excluded arcs *)
Definition legit (x : nat) : Prop := exists p, P s0 p x /\ avoid p.
Lemma below_n' : forall u x p, P u p x -> below n p.
Proof. intros u x p H. induction H as [|i a p t Ha Hp IH]; constructor; auto. apply (nth_lt _ _ _ _ (proj1 Ha)). Qed.
Lemma below_n : forall x p, P s0 p x -> below n p.
Proof. intros x p H. apply (below_n' s0 x p H). Qed.
Lemma prev_legit : forall s x, pinv n s -> x < N -> legit x ->
  is_max (fun z => exists p, P s0 p x /\ avoid p /\ z = (base + sc p)%Z) (pv s x).
Proof.
  intros s x I Hx [p [Hp Ap]]. split.
  - destruct (p_att n s I x Hx) as [Q|[u [q [Hq E]]]]; [exact Q|]. exfalso.
    pose proof (p_ub n s I x p Hp (below_n x p Hp) Ap) as U. pose proof (path_score_bound _ _ _ _ _ T Hp). pose proof (path_score_bound _ _ _ _ _ T Hq). unfold tot in B. lia.
  - intros y [q [Hq [Aq ->]]]. apply (p_ub n s I x q Hq (below_n x q Hq) Aq).
Qed.
Lemma prev_junk : forall s x, pinv n s -> x < N -> ~ legit x -> (SMALL_SCORE <= pv s x <= SMALL_SCORE + tot)%Z.
Proof.
  intros s x I Hx Hn. split; [apply (p_small n s I x Hx)|]. destruct (p_att n s I x Hx) as [[p [Hp [Ap E]]]|[u [p [Hp E]]]].
  - exfalso. apply Hn. exists p; auto.
  - pose proof (path_score_bound _ _ _ _ _ T Hp). unfold tot. lia.
Qed.
Lemma legit_big : forall s x, pinv n s -> x < N -> legit x -> (SMALL_SCORE + tot < pv s x)%Z.
Proof.
  intros s x I Hx Hl. destruct (prev_legit s x I Hx Hl) as [[p [Hp [_ E]]] _]. pose proof (path_score_bound _ _ _ _ _ T Hp). unfold tot in B |- *. lia.
Qed.
Lemma walk_ok : forall s, pinv n s -> forall fuel x lim, x < N -> legit x -> lim <= fuel ->
  (forall i a, alive (arcs g) (arcsPruned g) i a -> a_succ a = x -> i < lim) ->
  exists p, back_walk fuel g (best s) s0 x = Some p /\ P s0 (rev p) x /\ avoid p /\ pv s x = (base + sc (rev p))%Z.
Proof.
  intros s I fuel; induction fuel as [|fuel IH]; intros x lim Hx Hl Hlim Hin; cbn [back_walk].
  - destruct (Nat.eqb_spec x s0) as [->|Hne].
    + exists []. split; [reflexivity|]. split; [constructor|]. split; [constructor|]. rewrite (p_start n s I). cbn. lia.
    + exfalso. destruct Hl as [p [Hp _]]. destruct p as [|i p] using rev_ind; [inversion Hp; congruence|]. clear IHp. apply path_app_inv in Hp. destruct Hp as [u [_ H2]].
      inversion H2 as [|i' b p' t' Hb Hp']; subst. assert (a_succ b = x) by (inversion Hp'; congruence). pose proof (Hin i b Hb H). lia.
  - destruct (Nat.eqb_spec x s0) as [->|Hne].
    + exists []. split; [reflexivity|]. split; [constructor|]. split; [constructor|]. rewrite (p_start n s I). cbn. lia.
    + pose proof (legit_big s x I Hx Hl) as Big. pose proof tot_nonneg as TN.
      pose proof (p_set n s I x Hx Hne ltac:(lia)) as Hb. rewrite (nth_error_nth' (best s) None) by (rewrite (p_l2 n s I); exact Hx).
      destruct (nth x (best s) None) as [i|] eqn:E; [|congruence].
      destruct (p_best n s I x i Hx E) as [a [Ha [Hi [Hex [Es Ev]]]]]. rewrite (proj1 Ha).
      pose proof (wf_ends g W i a (proj1 Ha)) as [Ep _].
      assert (Hlp : legit (a_pred a)).
      { destruct (p_att n s I (a_pred a) Ep) as [[p [Hp [Ap _]]]|[u [p [Hp E']]]]; [exists p; auto|]. exfalso.
        assert (Hp2 : P u (p ++ [i]) (a_succ a)) by (eapply path_app; [exact Hp|constructor; [exact Ha|constructor]]).
        pose proof (path_score_bound _ _ _ _ _ T Hp2) as Q. rewrite pscore_app in Q. cbn [pscore] in Q. rewrite (proj1 Ha) in Q. unfold tot in *. lia. }
      destruct (IH (a_pred a) i Ep Hlp) as [p [W1 [W2 [W3 W4]]]].
      * pose proof (Hin i a Ha Es). lia.
      * intros j b Hb' Eb. apply (T j i b a Hb' Ha Eb).
      * rewrite W1. exists (i :: p). split; [reflexivity|]. cbn [rev]. split; [|split].
        -- eapply path_app; [exact W2|]. rewrite <- Es. constructor; [exact Ha|constructor].
        -- constructor; auto.
        -- rewrite Ev, W4, pscore_app. cbn [pscore]. rewrite (proj1 Ha). lia.
Qed.
(** selection of the best final state *)
Lemma best_final_spec : forall pvv fs b, Forall (fun s => s < length pvv) fs -> exists z t, best_final pvv fs b = Some (z, t) /\
  (fst b <= z)%Z /\ ((z, t) = b \/ (In t fs /\ z = nth t pvv 0%Z /\ (fst b < z)%Z)) /\ forall s, In s fs -> (nth s pvv 0 <= z)%Z.
Proof.
  intros pvv fs; induction fs as [|s fs IH]; intros b H; cbn [best_final].
  - destruct b as [z t]. exists z, t. split; [reflexivity|]. split; [cbn; lia|]. split; [auto|intros s []].
  - inversion H; subst. rewrite (nth_error_nth' pvv 0%Z) by exact H2.
    destruct (IH (if (fst b <? nth s pvv 0)%Z then (nth s pvv 0%Z, s) else b) H3) as [z [t [E [G1 [G2 G3]]]]]. exists z, t. split; [exact E|].
    destruct (Z.ltb_spec (fst b) (nth s pvv 0%Z)); cbn [fst] in *.
    + split; [lia|]. split; [right|intros x [<-|Hx]; [lia|auto]]. destruct G2 as [Q|[Q1 [Q2 Q3]]]; [injection Q as -> ->; split; [left; auto|split; [auto|lia]]|split; [right; auto|split; [auto|lia]]].
    + split; [lia|]. split; [destruct G2 as [Q|[Q1 [Q2 Q3]]]; [left; exact Q|right; split; [right; auto|auto]]|intros x [<-|Hx]; [lia|auto]].
Qed.
Hypothesis F : Forall (fun s => s < length (states g)) (finals g).
Lemma best_path_found : forall t, In t (finals g) -> legit t ->
  exists z p u, (forall fuel, n <= fuel -> bestPathFromFinalStateToIdx fuel g s0 excl = Some (z, p)) /\ In u (finals g) /\ P s0 (rev p) u /\ avoid p /\
    z = (base + sc (rev p))%Z /\ forall q w, P s0 q w -> In w (finals g) -> avoid q -> (base + sc q <= z)%Z.
Proof.
  intros t Ht Hl. destruct prev_result as [s [E I]]. unfold bestPathFromFinalStateToIdx. rewrite E.
  destruct (best_final_spec (prev s) (finals g) (SMALL_SCORE, INITIAL_STATE)) as [z [u [Eb [G1 [G2 G3]]]]]; [rewrite (p_l1 n s I); exact F|].
  rewrite Eb. cbn [fst snd] in *. assert (HtN : t < N) by (rewrite Forall_forall in F; auto).
  pose proof (legit_big s t I HtN Hl) as Bt. pose proof (G3 t Ht) as Gt. pose proof tot_nonneg as TN.
  destruct G2 as [Q|[Hu [Hz _]]]; [injection Q as -> _; lia|].
  assert (Hun : u < N) by (rewrite Forall_forall in F; auto).
  assert (Lu : legit u).
  { destruct (p_att n s I u Hun) as [[p [Hp [Ap _]]]|[x [p [Hp Ex]]]]; [exists p; auto|]. exfalso. pose proof (path_score_bound _ _ _ _ _ T Hp). unfold tot in *. lia. }
  assert (Walk : exists p, (forall fuel, n <= fuel -> back_walk fuel g (best s) s0 u = Some p) /\ P s0 (rev p) u /\ avoid p /\ nth u (prev s) 0%Z = (base + sc (rev p))%Z).
  { destruct (walk_ok s I n u n Hun Lu (le_n _)) as [p [W1 W2]]; [intros i a Ha _; apply (nth_lt _ _ _ _ (proj1 Ha))|].
    exists p. split; [|exact W2]. intros fuel Hf.
    assert (Mono : forall f1 f2 x q, f1 <= f2 -> back_walk f1 g (best s) s0 x = Some q -> back_walk f2 g (best s) s0 x = Some q).
    { induction f1 as [|f1 IHf]; intros f2 x q Hle H; destruct f2 as [|f2]; cbn [back_walk] in *; destruct (x =? s0); auto; try discriminate; [lia|].
      destruct (nth_error (best s) x) as [[i|]|]; [|discriminate|discriminate]. destruct (nth_error (arcs g) i) as [a|]; [|discriminate].
      destruct (back_walk f1 g (best s) s0 (a_pred a)) as [r|] eqn:Er; [|discriminate]. rewrite (IHf f2 (a_pred a) r ltac:(lia) Er). exact H. }
    apply (Mono n fuel u p Hf W1). }
  destruct Walk as [p [W1 [W2 [W3 W4]]]]. exists z, p, u. split; [|split; [exact Hu|split; [exact W2|split; [exact W3|split; [lia|]]]]].
  - intros fuel Hf. unfold stateIsFinal. rewrite (proj2 (existsb_In u (finals g)) Hu), (W1 fuel Hf). reflexivity.
  - intros q w Hq Hw Aq. pose proof (p_ub n s I w q Hq (below_n w q Hq) Aq). pose proof (G3 w Hw). lia.
Qed.
(** nothing reachable: with non-positive arc scores and a non-final initial state the answer is (SMALL_SCORE, no arcs) *)
Lemma best_path_none : (forall t, In t (finals g) -> ~ legit t) -> (forall i a, nth_error (arcs g) i = Some a -> (a_score a <= 0)%Z) -> ~ In INITIAL_STATE (finals g) ->
  forall fuel, bestPathFromFinalStateToIdx fuel g s0 excl = Some (SMALL_SCORE, []).
Proof.
  intros Hno Hneg Hini fuel. destruct prev_result as [s [E I]]. unfold bestPathFromFinalStateToIdx. rewrite E.
  destruct (best_final_spec (prev s) (finals g) (SMALL_SCORE, INITIAL_STATE)) as [z [u [Eb [G1 [G2 G3]]]]]; [rewrite (p_l1 n s I); exact F|].
  rewrite Eb. cbn [fst snd] in *. destruct G2 as [Q|[Hu [Hz Hlt]]].
  - injection Q as -> ->. unfold stateIsFinal. destruct (existsb (Nat.eqb INITIAL_STATE) (finals g)) eqn:Q; [apply existsb_In in Q; contradiction|reflexivity].
  - exfalso. assert (Hun : u < N) by (rewrite Forall_forall in F; auto). destruct (p_att n s I u Hun) as [[p [Hp [Ap _]]]|[x [p [Hp Ex]]]]; [apply (Hno u Hu); exists p; auto|].
    assert (Neg : forall q, (sc q <= 0)%Z).
    { induction q as [|i q IHq]; cbn; [lia|]. destruct (nth_error (arcs g) i) as [a|] eqn:Ea; [pose proof (Hneg i a Ea)|]; lia. }
    pose proof (Neg p). lia.
Qed.
End Prev.
