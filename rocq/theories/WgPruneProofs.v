(** pruneArcsToPredStates: which arcs survive *)
From Coq Require Import ZArith List Bool Lia Arith Sorted Permutation.
From Verif Require Import WgSpec WgModel WgBase WgHeurProofs WgUsefulProofs WgBestProofs.
Import ListNotations.
Open Scope nat_scope.

Lemma NoDup_app_parts : forall A (a b : list A), NoDup a -> NoDup b -> (forall x, In x a -> ~ In x b) -> NoDup (a ++ b).
Proof.
  induction a as [|x a IH]; intros b H1 H2 H; cbn; [exact H2|]. inversion H1; subst. constructor.
  - rewrite in_app_iff. intros [Q|Q]; [auto|]. apply (H x (or_introl eq_refl) Q).
  - apply IH; auto. intros y Hy. apply H. right; auto.
Qed.
Section Bits.
Variable g : wg.
Hypothesis W : wf g.
Variables (pv rs : list Z) (lm : Z).
Hypothesis Lp : length pv = length (states g).
Hypothesis Lr : length rs = length (states g).
Definition badarc (a : arc) : bool := (nth (a_pred a) pv 0 + a_score a + nth (a_succ a) rs 0 <? lm)%Z.
Definition bad (i : nat) : bool := match nth_error (arcs g) i with Some a => badarc a | None => false end.
Lemma prune_ids_spec : forall ids b c, Forall (fun i => i < length (arcs g)) ids -> length b = length (arcs g) ->
  exists b', prune_ids g pv rs lm ids (b, c) = Some (b', c + length (filter bad ids)) /\ length b' = length (arcs g) /\
    forall i, i < length (arcs g) -> nth i b' false = if in_dec Nat.eq_dec i ids then bad i else nth i b false.
Proof.
  induction ids as [|i ids IH]; intros b c H L; cbn [prune_ids].
  - exists b. rewrite Nat.add_0_r. split; [reflexivity|]. split; [exact L|]. intros i Hi. reflexivity.
  - inversion H; subst. destruct (nth_ex _ (arcs g) i H2) as [a Ha]. rewrite Ha. pose proof (wf_ends g W i a Ha) as [Ep Es].
    rewrite (nth_error_nth' pv 0%Z), (nth_error_nth' rs 0%Z) by lia.
    assert (Eb : (nth (a_pred a) pv 0 + a_score a + nth (a_succ a) rs 0 <? lm)%Z = bad i) by (unfold bad; rewrite Ha; reflexivity). rewrite Eb.
    cbn [fst snd]. destruct (upd_ok _ i (fun _ => bad i) b) as [b1 E1]; [lia|]. rewrite E1.
    destruct (IH b1 (if bad i then S c else c) H3) as [b' [E' [L' N']]]; [apply upd_some in E1; lia|].
    exists b'. rewrite E'. split; [f_equal; f_equal; cbn [filter]; destruct (bad i); cbn [length]; lia|]. split; [exact L'|].
    intros j Hj. rewrite (N' j Hj), (nth_upd_const _ _ _ false _ _ j E1) by lia.
    destruct (in_dec Nat.eq_dec j ids) as [Q|Q], (in_dec Nat.eq_dec j (i :: ids)) as [Q2|Q2]; auto.
    + exfalso. apply Q2. right; auto.
    + destruct Q2 as [<-|Q2]; [rewrite Nat.eqb_refl; reflexivity|contradiction].
    + destruct (Nat.eqb_spec j i) as [->|]; [exfalso; apply Q2; left; auto|reflexivity].
Qed.
Lemma prune_states_spec : forall ds b c, Forall (fun d => Forall (fun i => i < length (arcs g)) (toPred d)) ds -> length b = length (arcs g) ->
  exists b', prune_states g pv rs lm ds (b, c) = Some (b', c + length (filter bad (flat_map toPred ds))) /\ length b' = length (arcs g) /\
    forall i, i < length (arcs g) -> nth i b' false = if in_dec Nat.eq_dec i (flat_map toPred ds) then bad i else nth i b false.
Proof.
  induction ds as [|d ds IH]; intros b c H L; cbn [prune_states].
  - exists b. rewrite Nat.add_0_r. split; [reflexivity|]. split; [exact L|]. intros i Hi. reflexivity.
  - inversion H; subst. destruct (prune_ids_spec (toPred d) b c H2 L) as [b1 [E1 [L1 N1]]]. rewrite E1.
    destruct (IH b1 (c + length (filter bad (toPred d))) H3 L1) as [b' [E' [L' N']]]. exists b'. rewrite E'. cbn [flat_map].
    split; [f_equal; f_equal; rewrite filter_app, app_length; lia|]. split; [exact L'|].
    intros j Hj. rewrite (N' j Hj), (N1 j Hj).
    destruct (in_dec Nat.eq_dec j (flat_map toPred ds)) as [Q|Q], (in_dec Nat.eq_dec j (toPred d)) as [Q1|Q1], (in_dec Nat.eq_dec j (toPred d ++ flat_map toPred ds)) as [Q2|Q2]; auto; rewrite in_app_iff in Q2; tauto.
Qed.
Lemma all_arcs_once : Permutation (flat_map toPred (states g)) (seq 0 (length (arcs g))).
Proof.
  assert (E : forall ds off, (forall s d, nth_error ds s = Some d -> toPred d = entering (arcs g) (off + s)) ->
    NoDup (flat_map toPred ds) /\ forall i, In i (flat_map toPred ds) <-> exists a, nth_error (arcs g) i = Some a /\ off <= a_succ a < off + length ds).
  { induction ds as [|d ds IH]; intros off H; cbn [flat_map length].
    - split; [constructor|]. intros i. split; [intros []|]. intros [a [_ Q]]. lia.
    - destruct (IH (S off)) as [ND M]; [intros s d' Hd; rewrite (H (S s) d' Hd); f_equal; lia|].
      assert (Ed : toPred d = entering (arcs g) off) by (rewrite (H 0 d eq_refl), Nat.add_0_r; reflexivity).
      split.
      + apply NoDup_app_parts.
        * rewrite Ed. unfold entering. apply NoDup_filter, seq_NoDup.
        * exact ND.
        * intros i Hi Hi2. rewrite Ed in Hi. apply entering_In in Hi. destruct Hi as [a [Ha Es]]. apply M in Hi2. destruct Hi2 as [a2 [Ha2 Q]].
          assert (a2 = a) by congruence. subst a2. lia.
      + intros i. rewrite in_app_iff, Ed, entering_In, M. split.
        * intros [[a [Ha Q]]|[a [Ha Q]]]; exists a; split; auto; lia.
        * intros [a [Ha Q]]. destruct (Nat.eq_dec (a_succ a) off); [left; exists a; auto|right; exists a; split; [auto|lia]]. }
  destruct (E (states g) 0) as [ND M]; [intros s d Hd; apply (wf_adj g W s d Hd)|].
  apply NoDup_Permutation; [exact ND|apply seq_NoDup|]. intros i. rewrite M, in_seq. split.
  - intros [a [Ha _]]. apply nth_lt in Ha. lia.
  - intros Hi. destruct (nth_ex _ (arcs g) i) as [a Ha]; [lia|]. exists a. split; [exact Ha|]. pose proof (wf_ends g W i a Ha). lia.
Qed.
Lemma prune_bits : exists b', prune_states g pv rs lm (states g) (arcsPruned g, 0) = Some (b', length (filter bad (seq 0 (length (arcs g))))) /\ b' = map bad (seq 0 (length (arcs g))).
Proof.
  destruct (prune_states_spec (states g) (arcsPruned g) 0) as [b' [E [L N]]].
  - apply Forall_forall. intros d Hd. apply In_nth_error in Hd. destruct Hd as [s Hd]. rewrite (proj2 (wf_adj g W s d Hd)).
    apply Forall_forall. intros i Hi. apply entering_In in Hi. destruct Hi as [a [Ha _]]. apply (nth_lt _ _ _ _ Ha).
  - apply (wf_pr g W).
  - exists b'. split.
    + rewrite E. f_equal. f_equal. cbn [plus]. apply Permutation_length.
      assert (PF : forall l1 l2, Permutation l1 l2 -> Permutation (filter bad l1) (filter bad l2)).
      { intros l1 l2 H. induction H; cbn [filter]; auto.
        - destruct (bad x); auto.
        - destruct (bad x), (bad y); auto. apply perm_swap.
        - eapply Permutation_trans; eauto. }
      apply PF, all_arcs_once.
    + apply nth_ext with (d := false) (d' := bad (length (arcs g))); [rewrite map_length, seq_length; exact L|]. intros i Hi. rewrite map_nth, seq_nth by lia. cbn [plus].
      rewrite (N i ltac:(lia)). destruct (in_dec Nat.eq_dec i (flat_map toPred (states g))) as [Q|Q]; [reflexivity|].
      exfalso. apply Q. eapply Permutation_in; [apply Permutation_sym, all_arcs_once|]. apply in_seq. lia.
Qed.
End Bits.
Section Prune.
Variable g : wg.
Hypothesis W : wf g.
Hypothesis T : topological (arcs g) (arcsPruned g).
Hypothesis F : Forall (fun s => s < length (states g)) (finals g).
Hypothesis NE : arcs g <> [].
Hypothesis U : Forall (fun b => b = false) (arcsPruned g).
Notation P := (path (arcs g) (arcsPruned g)).
Notation sc := (pscore (arcs g)).
Notation tot := (total_abs (arcs g)).
Hypothesis B : (SMALL_SCORE + 2 * tot < initScore g)%Z.
Variable lt : Z.
Hypothesis Blt : (SMALL_SCORE + 4 * tot < lt)%Z.
Definition cpath (p : list nat) : Prop := exists t, In t (finals g) /\ P 0 p t.
Variable bz : Z.
Hypothesis Hbest : is_max (fun z => exists p, cpath p /\ z = sc p) bz.
Lemma avoid_nil : forall p, avoid [] p.
Proof. intros p. apply Forall_forall. intros i _ []. Qed.
Lemma prune_result : exists g' c, pruneArcs g lt = Some (g', c) /\ c = length (filter (fun b => b) (arcsPruned g')) /\
  forall i a, nth_error (arcs g) i = Some a ->
    (nth_error (arcsPruned g') i = Some false <-> exists p, cpath p /\ In i p /\ (bz + lt <= initScore g + sc p)%Z).
Proof.
  assert (HN : 0 < length (states g)).
  { destruct (arcs g) as [|a l] eqn:E; [congruence|]. assert (Ha : nth_error (arcs g) 0 = Some a) by (rewrite E; reflexivity). pose proof (wf_ends g W 0 a Ha). lia. }
  assert (TN : (0 <= tot)%Z) by (pose proof (tail_abs_nonneg (arcs g) 0) as Q; exact Q).
  destruct (rest_max g W T F) as [rs [Er [Lr Qr]]]; [clear -B TN; lia|].
  assert (B0 : (SMALL_SCORE + 2 * WgBestProofs.tot g < base g 0)%Z) by exact B.
  destruct (prev_result g W T NE 0 HN [] B0) as [s [Es I]].
  destruct (best_final_spec g 0 HN (prev s) (finals g) (SMALL_SCORE, INITIAL_STATE)) as [z [u [Eb [G1 [G2 G3]]]]]; [rewrite (p_l1 _ _ _ _ _ I); exact F|].
  cbn [fst snd] in *.
  assert (Hbase : base g 0 = initScore g) by reflexivity.
  assert (Hz : z = (initScore g + bz)%Z).
  { destruct Hbest as [[p [[t [Ht Hp]] Ebz]] Hub].
    assert (Q1 : (initScore g + bz <= z)%Z).
    { pose proof (p_ub _ _ _ _ _ I t p Hp (below_n g 0 t p Hp) (avoid_nil p)) as Q. pose proof (G3 t Ht). rewrite Hbase in Q. lia. }
    pose proof (path_score_bound _ _ _ _ _ T Hp) as PB.
    destruct G2 as [Q|[Hu [Hzu _]]]; [injection Q as -> _; lia|].
    assert (HuN : u < length (states g)) by (rewrite Forall_forall in F; auto).
    destruct (p_att _ _ _ _ _ I u HuN) as [[q [Hq [_ E]]]|[x [q [Hq E]]]].
    - assert (sc q <= bz)%Z; [apply Hub; exists q; split; [exists u; auto|reflexivity]|]. rewrite Hbase in E. lia.
    - pose proof (path_score_bound _ _ _ _ _ T Hq). lia. }
  destruct (prune_bits g W (prev s) rs (z + lt)%Z (p_l1 _ _ _ _ _ I) Lr) as [b' [Ep Ebits]].
  unfold pruneArcs. rewrite Er. change INITIAL_STATE with 0 in *. rewrite Es. change (SMALL_SCORE, 0) with (SMALL_SCORE, INITIAL_STATE). unfold INITIAL_STATE. rewrite Eb. cbn [fst snd]. rewrite Ep.
  eexists. eexists. split; [reflexivity|]. cbn [arcsPruned fst snd]. split.
  { rewrite Ebits. clear. induction (seq 0 (length (arcs g))) as [|i l IH]; [reflexivity|]. cbn [filter map]. destruct (bad g (prev s) rs (z + lt)%Z i); cbn [length]; rewrite IH; reflexivity. }
  intros i a Ha. pose proof (nth_lt _ _ _ _ Ha) as Hi. pose proof (wf_ends g W i a Ha) as [Epd Esc].
  assert (Al : alive (arcs g) (arcsPruned g) i a).
  { split; [exact Ha|]. destruct (nth_ex _ (arcsPruned g) i) as [b Hb]; [rewrite (wf_pr g W); exact Hi|]. rewrite Hb. rewrite Forall_forall in U. rewrite (U b (nth_error_In _ _ Hb)). reflexivity. }
  rewrite Ebits. rewrite (map_nth_error (bad g (prev s) rs (z + lt)%Z) i (seq 0 (length (arcs g))) (d := i)) by (rewrite (nth_error_nth' _ 0) by (rewrite seq_length; exact Hi); rewrite seq_nth by exact Hi; reflexivity).
  unfold bad. rewrite Ha. unfold badarc.
  destruct (Qr (a_succ a) Esc) as [[q [w [Hq Erest]]] Rub].
  pose proof (path_score_bound _ _ _ _ _ T Hq) as PBq.
  destruct Hbest as [[pb [[tb [Htb Hpb]] Ebz]] Hub]. pose proof (path_score_bound _ _ _ _ _ T Hpb) as PBb.
  assert (SB : (Z.abs (a_score a) <= tot)%Z).
  { assert (Hpi : P (a_pred a) [i] (a_succ a)) by (constructor; [exact Al|constructor]). pose proof (path_score_bound _ _ _ _ _ T Hpi) as Q. cbn [pscore] in Q. rewrite Ha in Q. lia. }
  split.
  - intros E. injection E as E. apply Z.ltb_ge in E.
    assert (EV : (end_value (initScore g) (finals g) w <= initScore g)%Z) by (unfold end_value; destruct (existsb _ _); lia).
    destruct (p_att _ _ _ _ _ I (a_pred a) Epd) as [[p [Hp [_ E1]]]|[x [p [Hp E1]]]]; pose proof (path_score_bound _ _ _ _ _ T Hp) as PBp.
    + unfold end_value in Erest, EV. destruct (existsb (Nat.eqb w) (finals g)) eqn:Qw.
      * apply existsb_In in Qw. exists (p ++ i :: q). split; [exists w; split; [exact Qw|]; eapply path_app; [exact Hp|constructor; [exact Al|exact Hq]]|].
        split; [apply in_or_app; right; left; auto|]. rewrite pscore_app. cbn [pscore]. rewrite Ha. rewrite Hbase in E1. lia.
      * exfalso. rewrite Hbase in E1. lia.
    + exfalso. lia.
  - intros [p [[t [Ht Hp]] [Hin Hsc]]]. f_equal. apply Z.ltb_ge. apply in_split in Hin. destruct Hin as [l1 [l2 ->]].
    apply path_app_inv in Hp. destruct Hp as [x [H1 H2]]. inversion H2 as [|i' a' p' t' Ha' Hp']; subst.
    assert (a' = a) by (destruct Ha' as [A _]; congruence). subst a'.
    pose proof (p_ub _ _ _ _ _ I (a_pred a) l1 H1 (below_n g 0 _ l1 H1) (avoid_nil l1)) as Q1. rewrite Hbase in Q1.
    assert (Q2 : (sc l2 + initScore g <= nth (a_succ a) rs 0)%Z).
    { apply Rub. exists l2, t. split; [exact Hp'|]. unfold end_value. rewrite (proj2 (existsb_In t (finals g)) Ht). reflexivity. }
    rewrite pscore_app in Hsc. cbn [pscore] in Hsc. rewrite Ha in Hsc. lia.
Qed.
End Prune.
