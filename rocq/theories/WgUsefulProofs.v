(** obtainUsefulStates and obtainWgComposedOfUsefulStates *)
From Coq Require Import ZArith List Bool Lia Arith Sorted.
From Verif Require Import WgSpec WgModel WgBase WgHeurProofs.
Import ListNotations.
Open Scope nat_scope.

Lemma nth_upd_true : forall k v v' j, upd k (fun _ => true) v = Some v' ->
  nth j v' false = if j =? k then true else nth j v false.
Proof.
  intros k v v' j H. apply upd_some in H. destruct H as [Hk [L N]]. specialize (N j).
  destruct (Nat.lt_ge_cases j (length v)) as [Hj|Hj].
  - rewrite (nth_error_nth' v' false), (nth_error_nth' v false) in N by lia. destruct (j =? k); cbn in N; congruence.
  - rewrite !nth_overflow by lia. destruct (Nat.eqb_spec j k); [lia|reflexivity].
Qed.
Section Useful.
Variable g : wg.
Hypothesis W : wf g.
Hypothesis T : topological (arcs g) (arcsPruned g).
Hypothesis F : Forall (fun s => s < length (states g)) (finals g).
Notation P := (path (arcs g) (arcsPruned g)).
Notation N := (length (states g)).
(** an alive arc enters s *)
Definition entered (s : nat) : Prop := exists i a, alive (arcs g) (arcsPruned g) i a /\ a_succ a = s.

Definition rinv (k : nat) (v : list bool) : Prop :=
  length v = N /\ forall s, s < N -> (nth s v false = true <-> exists p, P 0 p s /\ Forall (fun i => i < k) p).
Lemma last_arc : forall s p t k, P s p t -> Forall (fun i => i < S k) p -> In k p -> exists q a, p = q ++ [k] /\ alive (arcs g) (arcsPruned g) k a /\ P s q (a_pred a) /\ a_succ a = t /\ Forall (fun i => i < k) q.
Proof.
  intros s p t k Hp Fp Hin. apply in_split in Hin. destruct Hin as [l1 [l2 E]]. subst p.
  destruct (path_increasing _ _ T _ _ _ Hp) as [So _]. apply path_app_inv in Hp. destruct Hp as [u [H1 H2]].
  inversion H2 as [|i a p' t' Ha Hp']; subst.
  assert (Al : forall l, StronglySorted lt (l ++ k :: l2) -> Forall (fun i => i < k) l /\ Forall (fun i => k < i) l2).
  { induction l as [|x l IH]; intros So'; cbn in So'; apply StronglySorted_inv in So'; destruct So' as [S1 S2]; [split; [constructor|exact S2]|].
    destruct (IH S1) as [I1 I2]. split; [|exact I2]. constructor; [|exact I1]. rewrite Forall_forall in S2. apply S2. apply in_or_app; right; left; auto. }
  destruct (Al l1 So) as [A1 A2]. destruct l2 as [|z l2].
  - inversion Hp'; subst. exists l1, a. auto.
  - exfalso. apply Forall_app in Fp. destruct Fp as [_ Fp]. inversion Fp as [|? ? _ Fp2]; subst. inversion Fp2; subst. inversion A2; subst. lia.
Qed.
Lemma reach_loop : 0 < N -> exists v, obtainStatesReachableFromInit g = Some v /\ length v = N /\
  forall s, s < N -> (nth s v false = true <-> reaches (arcs g) (arcsPruned g) 0 s).
Proof.
  intros HN. unfold obtainStatesReachableFromInit.
  set (v0 := match repeat false N with [] => [] | _ :: r => true :: r end).
  assert (V0 : rinv 0 v0).
  { unfold rinv, v0. destruct N as [|m] eqn:EN; [lia|]. cbn [repeat]. split; [cbn; rewrite repeat_length; reflexivity|].
    intros s Hs. split.
    - intros E. destruct s as [|s]; [exists []; split; constructor|]. cbn in E.
      rewrite (nth_error_nth _ _ false (nth_repeat_lt bool false m s ltac:(lia))) in E. discriminate.
    - intros [p [Hp Fp]]. destruct p as [|i p]; [inversion Hp; reflexivity|]. inversion Fp; lia. }
  destruct (for_fwd_all g (wf_pr g W) reach_step rinv) with (v := v0) as [v [E [L H]]]; auto.
  - intros i v _ Hpr [L H]. split; [exact L|]. intros s Hs. rewrite (H s Hs). split; intros [p [Hp Fp]]; exists p; (split; [exact Hp|]).
    + eapply Forall_impl; [|exact Fp]. cbn; intros; lia.
    + apply Forall_forall. intros j Hj. rewrite Forall_forall in Fp. specialize (Fp j Hj).
      assert (j <> i); [|lia]. intros ->. clear - Hp Hj Hpr. induction Hp as [|k a p t Ha Hp IH]; [destruct Hj|]. destruct Hj as [->|Hj]; [|auto].
      destruct Ha as [_ Ha]. congruence.
  - intros i a v Ha [L H]. pose proof (wf_ends g W i a (proj1 Ha)) as [Ep Es]. unfold reach_step.
    rewrite (nth_error_nth' v false) by lia. destruct (nth (a_pred a) v false) eqn:E.
    + destruct (upd_ok _ (a_succ a) (fun _ => true) v) as [v' E']; [lia|]. rewrite E'. exists v'. split; [reflexivity|].
      split; [apply upd_some in E'; lia|]. intros s Hs. rewrite (nth_upd_true _ _ _ s E').
      apply (H _ Ep) in E. destruct E as [q [Hq Fq]].
      destruct (Nat.eqb_spec s (a_succ a)) as [->|Hne].
      * split; [intros _|auto]. exists (q ++ [i]). split; [eapply path_app; [exact Hq|]; constructor; [exact Ha|constructor]|].
        apply Forall_app. split; [eapply Forall_impl; [|exact Fq]; cbn; intros; lia|constructor; [lia|constructor]].
      * rewrite (H s Hs). split; intros [p [Hp Fp]]; exists p; (split; [exact Hp|]); [eapply Forall_impl; [|exact Fp]; cbn; intros; lia|].
        apply Forall_forall. intros j Hj. rewrite Forall_forall in Fp. pose proof (Fp j Hj). assert (j <> i); [|lia]. intros ->.
        destruct (last_arc 0 p s i Hp) as [q' [a' [_ [Ha' [_ [Et _]]]]]]; [apply Forall_forall; exact Fp|exact Hj|].
        assert (a' = a) by (destruct Ha as [A1 _], Ha' as [A2 _]; congruence). congruence.
    + exists v. split; [reflexivity|]. split; [exact L|]. intros s Hs. rewrite (H s Hs).
      split; intros [p [Hp Fp]]; exists p; (split; [exact Hp|]); [eapply Forall_impl; [|exact Fp]; cbn; intros; lia|].
      apply Forall_forall. intros j Hj. rewrite Forall_forall in Fp. pose proof (Fp j Hj). assert (j <> i); [|lia]. intros ->.
      destruct (last_arc 0 p s i Hp) as [q' [a' [_ [Ha' [Hq' [Et Fq']]]]]]; [apply Forall_forall; exact Fp|exact Hj|].
      assert (a' = a) by (destruct Ha as [A1 _], Ha' as [A2 _]; congruence). subst a'.
      assert (nth (a_pred a) v false = true) by (apply (H _ Ep); eauto). congruence.
  - exists v. split; [exact E|]. split; [exact L|]. intros s Hs. rewrite (H s Hs). split; [intros [p [Hp _]]; exists p; exact Hp|].
    intros [p Hp]. exists p. split; [exact Hp|]. clear - Hp. induction Hp as [|i a p t Ha Hp IH]; constructor; auto. apply (nth_lt _ _ _ _ (proj1 Ha)).
Qed.
Lemma useful_finals_spec : forall fs v, Forall (fun s => s < N) fs -> length v = N ->
  exists v', useful_finals g fs v = Some v' /\ length v' = N /\
    forall s, nth s v' false = true <-> nth s v false = true \/ (In s fs /\ entered s).
Proof.
  induction fs as [|s fs IH]; intros v H L; cbn [useful_finals].
  - exists v. split; [reflexivity|]. split; [exact L|]. intros s. split; [auto|]. intros [Q|[[] _]]; auto.
  - inversion H; subst. rewrite getPred_spec by exact W. set (ids := filter _ _).
    assert (Mids : forall i, In i ids <-> exists a, alive (arcs g) (arcsPruned g) i a /\ a_succ a = s).
    { apply (pred_ids_In g s ids W). apply getPred_spec, W. }
    destruct ids as [|i0 ids].
    + destruct (IH v H3 L) as [v' [E [L' Q]]]. exists v'. split; [exact E|]. split; [exact L'|]. intros t. rewrite Q. split.
      * intros [A|[A B]]; [auto|right; split; [right; exact A|exact B]].
      * intros [A|[[<-|A] B]]; [auto| |auto]. destruct B as [i B]. apply Mids in B. destruct B.
    + destruct (upd_ok _ s (fun _ => true) v) as [v1 E1]; [lia|]. rewrite E1.
      destruct (IH v1 H3) as [v' [E [L' Q]]]; [apply upd_some in E1; lia|]. exists v'. split; [exact E|]. split; [exact L'|].
      intros t. rewrite Q, (nth_upd_true _ _ _ t E1). destruct (Nat.eqb_spec t s) as [->|Hne].
      * split; [|auto]. intros _. right. split; [left; auto|]. destruct (proj1 (Mids i0) (or_introl eq_refl)) as [a [A B]]. exists i0, a. auto.
      * split; [intros [A|[A B]]; [auto|right; split; [right; exact A|exact B]]|]. intros [A|[[A|A] B]]; [auto|congruence|auto].
Qed.
Definition goal (t : nat) : Prop := In t (finals g) /\ entered t.
Definition useful (s : nat) : Prop := goal s \/ (reaches (arcs g) (arcsPruned g) 0 s /\ exists t, reaches (arcs g) (arcsPruned g) s t /\ goal t).
Definition uinv (k : nat) (v : list bool) : Prop :=
  length v = N /\ forall s, s < N -> (nth s v false = true <->
    goal s \/ (reaches (arcs g) (arcsPruned g) 0 s /\ exists p t, P s p t /\ Forall (fun i => k <= i) p /\ p <> [] /\ goal t)).
Lemma usefulVec_spec : 0 < N -> exists v, usefulVec g = Some v /\ length v = N /\ forall s, s < N -> (nth s v false = true <-> useful s).
Proof.
  intros HN. unfold usefulVec. destruct (useful_finals_spec (finals g) (repeat false N) F (repeat_length false N)) as [v0 [E0 [L0 Q0]]].
  rewrite E0. destruct (reach_loop HN) as [rv [Er [Lr Qr]]]. rewrite Er.
  assert (Q0' : forall s, s < N -> (nth s v0 false = true <-> goal s)).
  { intros s Hs. rewrite Q0. rewrite (nth_error_nth _ _ false (nth_repeat_lt bool false N s Hs)). unfold goal. split; [intros [A|A]; [discriminate|exact A]|auto]. }
  destruct (for_bwd_all g (wf_pr g W) (useful_step rv) uinv) with (v := v0) as [v [E [L H]]].
  - intros i v _ Hpr [L H]. split; [exact L|]. intros s Hs. rewrite (H s Hs). split; (intros [A|[A [p [t [Hp [Fp B]]]]]]; [auto|]); right; (split; [exact A|]); exists p, t; (split; [exact Hp|split; [|exact B]]).
    + eapply Forall_impl; [|exact Fp]. cbn; intros; lia.
    + apply Forall_forall. intros j Hj. rewrite Forall_forall in Fp. specialize (Fp j Hj).
      assert (j <> i); [|lia]. intros ->. clear - Hp Hj Hpr. induction Hp as [|k a p t Ha Hp IH]; [destruct Hj|]. destruct Hj as [->|Hj]; [|auto].
      destruct Ha as [_ Ha]. congruence.
  - intros i a v Ha [L H]. pose proof (wf_ends g W i a (proj1 Ha)) as [Ep Es]. unfold useful_step.
    rewrite (nth_error_nth' rv false) by lia. rewrite (nth_error_nth' v false) by lia.
    assert (First : forall s p t, P s p t -> Forall (fun j => i <= j) p -> p <> [] -> Forall (fun j => S i <= j) p \/ exists q, p = i :: q /\ s = a_pred a /\ P (a_succ a) q t /\ Forall (fun j => S i <= j) q).
    { intros s p t Hp Fp Hne. destruct (path_increasing _ _ T _ _ _ Hp) as [Sp _]. destruct p as [|j q]; [congruence|].
      apply StronglySorted_inv in Sp. destruct Sp as [S1 S2]. inversion Fp; subst. destruct (Nat.eq_dec j i) as [->|Hj].
      - right. exists q. inversion Hp as [|i' a' p' t' Ha' Hp']; subst. assert (a' = a) by (destruct Ha as [A1 _], Ha' as [A2 _]; congruence). subst a'. auto.
      - left. constructor; [lia|]. eapply Forall_impl; [|exact S2]. cbn; intros; lia. }
    assert (Mono : forall p, Forall (fun j => S i <= j) p -> Forall (fun j => i <= j) p) by (intros p Hp; eapply Forall_impl; [|exact Hp]; cbn; intros; lia).
    destruct (nth (a_pred a) rv false && nth (a_succ a) v false) eqn:E.
    + apply andb_true_iff in E. destruct E as [E1 E2]. apply (Qr _ Ep) in E1. apply (H _ Es) in E2.
      destruct (upd_ok _ (a_pred a) (fun _ => true) v) as [v' E']; [lia|]. rewrite E'. exists v'. split; [reflexivity|].
      split; [apply upd_some in E'; lia|]. intros s Hs. rewrite (nth_upd_true _ _ _ s E').
      destruct (Nat.eqb_spec s (a_pred a)) as [->|Hne].
      * split; [intros _|auto]. right. split; [exact E1|]. destruct E2 as [E2|[_ [p [t [Hp [Fp [_ Ht]]]]]]].
        -- exists [i], (a_succ a). split; [constructor; [exact Ha|constructor]|]. split; [repeat constructor|]. split; [discriminate|exact E2].
        -- exists (i :: p), t. split; [constructor; auto|]. split; [constructor; auto|]. split; [discriminate|exact Ht].
      * rewrite (H s Hs). split; (intros [A|[A [p [t [Hp [Fp [B C]]]]]]]; [auto|]); right; (split; [exact A|]); exists p, t; (split; [exact Hp|split; [|split; [exact B|exact C]]]); auto.
        destruct (First s p t Hp Fp B) as [Q|[q [_ [Q _]]]]; [exact Q|congruence].
    + exists v. split; [reflexivity|]. split; [exact L|]. intros s Hs. rewrite (H s Hs).
      split; (intros [A|[A [p [t [Hp [Fp [B C]]]]]]]; [auto|]); right; (split; [exact A|]); exists p, t; (split; [exact Hp|split; [|split; [exact B|exact C]]]); auto.
      destruct (First s p t Hp Fp B) as [Q|[q [-> [Eq [Hq Fq]]]]]; [exact Q|]. exfalso. subst s.
      apply andb_false_iff in E. destruct E as [E|E].
      * assert (nth (a_pred a) rv false = true) by (apply (Qr _ Ep); exact A). congruence.
      * assert (nth (a_succ a) v false = true); [|congruence]. apply (H _ Es). destruct q as [|j q].
        -- inversion Hq; subst. left; exact C.
        -- right. split.
           ++ destruct A as [r Hr]. exists (r ++ [i]). eapply path_app; [exact Hr|]. constructor; [exact Ha|constructor].
           ++ exists (j :: q), t. split; [exact Hq|]. split; [exact Fq|]. split; [discriminate|exact C].
  - split; [exact L0|]. intros s Hs. rewrite (Q0' s Hs). split; [auto|]. intros [A|[_ [p [t [Hp [Fp [B _]]]]]]]; [exact A|].
    destruct p as [|i p]; [congruence|]. inversion Hp as [|i' a p' t' Ha Hp']; subst. inversion Fp; subst. destruct Ha as [Ha _]. apply nth_lt in Ha. lia.
  - exists v. split; [exact E|]. split; [exact L|]. intros s Hs. rewrite (H s Hs). unfold useful. split.
    + intros [A|[A [p [t [Hp [_ [_ B]]]]]]]; [auto|]. right. split; [exact A|]. exists t. split; [exists p; exact Hp|exact B].
    + intros [A|[A [t [[p Hp] B]]]]; [auto|]. destruct p as [|i p]; [inversion Hp; subst; auto|]. right. split; [exact A|].
      exists (i :: p), t. split; [exact Hp|]. split; [apply Forall_forall; intros; lia|]. split; [discriminate|exact B].
Qed.
End Useful.
(** the renumbering *)
Definition count_true (v : list bool) : nat := length (filter (fun b => b) v).
Definition rk (v : list bool) (s : nat) : nat := count_true (firstn s v).
Lemma assoc_remap : forall v idx nw s, assoc s (remap v idx nw) =
  if idx <=? s then if nth (s - idx) v false then Some (nw + rk v (s - idx)) else None else None.
Proof.
  induction v as [|b v IH]; intros idx nw s.
  - cbn. destruct (idx <=? s); [|reflexivity]. destruct (s - idx); reflexivity.
  - cbn [remap]. destruct (Nat.leb_spec idx s) as [Hs|Hs].
    + destruct (Nat.eq_dec s idx) as [->|Hne].
      * rewrite Nat.sub_diag. cbn [nth]. unfold rk. cbn [firstn]. destruct b; [cbn [assoc]; rewrite Nat.eqb_refl; unfold count_true; cbn; rewrite Nat.add_0_r; reflexivity|].
        rewrite IH. destruct (Nat.leb_spec (S idx) idx); [lia|reflexivity].
      * assert (E : s - idx = S (s - S idx)) by lia. rewrite E. cbn [nth]. unfold rk. cbn [firstn].
        destruct b; [cbn [assoc]; destruct (Nat.eqb_spec s idx); [congruence|]|]; rewrite IH; (destruct (Nat.leb_spec (S idx) s); [|lia]); destruct (nth (s - S idx) v false); try reflexivity; f_equal; unfold rk, count_true; cbn [filter length]; lia.
    + destruct b; [cbn [assoc]; destruct (Nat.eqb_spec s idx); [lia|]|]; rewrite IH; (destruct (Nat.leb_spec (S idx) s); [lia|reflexivity]).
Qed.
Lemma assoc_remap0 : forall v s, assoc s (remap v 0 INITIAL_STATE) = if nth s v false then Some (rk v s) else None.
Proof. intros v s. rewrite assoc_remap. cbn [Nat.leb]. rewrite Nat.sub_0_r. reflexivity. Qed.
Lemma rk_lt : forall v s t, s < t -> nth s v false = true -> rk v s < rk v t.
Proof.
  induction v as [|b v IH]; intros s t H E; [destruct s; discriminate|]. destruct t as [|t]; [lia|]. unfold rk, count_true. destruct s as [|s].
  - cbn in E. subst b. cbn. lia.
  - cbn in E. specialize (IH s t ltac:(lia) E). unfold rk, count_true in IH. cbn [firstn filter]. destruct b; cbn [length]; lia.
Qed.
Lemma rk_inj : forall v s t, nth s v false = true -> nth t v false = true -> rk v s = rk v t -> s = t.
Proof. intros v s t Hs Ht E. destruct (Nat.lt_trichotomy s t) as [Q|[Q|Q]]; auto; pose proof (rk_lt v _ _ Q); [specialize (H Hs)|specialize (H Ht)]; lia. Qed.

(** the pruned copy *)
Definition labels (g : wg) (p : list nat) : list (option (list nat * Z * list Z)) :=
  map (fun i => match nth_error (arcs g) i, nth_error (comps g) i with Some a, Some c => Some (a_words a, a_score a, c) | _, _ => None end) p.
Section Regen.
Variable g : wg.
Hypothesis W : wf g.
Hypothesis T : topological (arcs g) (arcsPruned g).
Hypothesis F : Forall (fun s => s < length (states g)) (finals g).
Hypothesis HN : 0 < length (states g).
Variable v : list bool.
Hypothesis Hv : usefulVec g = Some v.
Notation m := (remap v 0 INITIAL_STATE).
Lemma v_spec : length v = length (states g) /\ forall s, s < length (states g) -> (nth s v false = true <-> useful g s).
Proof. destruct (usefulVec_spec g W T F HN) as [v' [E Q]]. rewrite Hv in E. injection E as <-. exact Q. Qed.
Definition ren (a : arc) : arc := {| a_pred := rk v (a_pred a); a_succ := rk v (a_succ a); a_score := a_score a; a_words := a_words a |}.
Definition keepb (i : nat) : bool :=
  match nth_error (arcs g) i, nth_error (arcsPruned g) i with Some a, Some false => nth (a_pred a) v false && nth (a_succ a) v false | _, _ => false end.
Definition kept (k : nat) : list nat := filter keepb (seq 0 k).
Definition pick {A B} (l : list A) (f : A -> B) (ids : list nat) : list B := flat_map (fun i => match nth_error l i with Some x => [f x] | None => [] end) ids.
Lemma pick_app : forall A B (l : list A) (f : A -> B) i j, pick l f (i ++ j) = pick l f i ++ pick l f j.
Proof. intros. unfold pick. apply flat_map_app. Qed.
Lemma pick_nth : forall A B (l : list A) (f : A -> B) ids k, Forall (fun i => i < length l) ids ->
  nth_error (pick l f ids) k = match nth_error ids k with Some i => option_map f (nth_error l i) | None => None end.
Proof.
  intros A B l f ids; induction ids as [|i ids IH]; intros k H; [destruct k; reflexivity|]. inversion H; subst.
  destruct (nth_ex _ l i H2) as [x Hx]. unfold pick. cbn [flat_map]. rewrite Hx. cbn [app]. destruct k; cbn [nth_error]; [rewrite Hx; reflexivity|]. apply IH; auto.
Qed.
Lemma kept_S : forall k, kept (S k) = kept k ++ (if keepb k then [k] else []).
Proof. intros k. unfold kept. rewrite seq_S, filter_app. reflexivity. Qed.
Lemma kept_lt : forall k, k <= length (arcs g) -> Forall (fun i => i < length (arcs g)) (kept k).
Proof. intros k H. apply Forall_forall. intros i Hi. unfold kept in Hi. apply filter_In in Hi. destruct Hi as [Hi _]. apply in_seq in Hi. lia. Qed.
Record ginv (fs : list nat) (k : nat) (g' : wg) : Prop := {
  g_wf : wf g';
  g_arcs : arcs g' = pick (arcs g) ren (kept k);
  g_comps : comps g' = pick (comps g) (fun c => c) (kept k);
  g_pr : arcsPruned g' = repeat false (length (kept k));
  g_fin : finals g' = fs;
  g_init : initScore g' = initScore g
}.
Lemma step_not_kept : forall i a g', alive (arcs g) (arcsPruned g) i a -> keepb i = false -> regen_arc v m (comps g) i a g' = Some g'.
Proof.
  intros i a g' Ha K. unfold regen_arc. pose proof (nth_lt _ _ _ _ (proj1 Ha)) as Hi.
  destruct (nth_ex _ (comps g) i) as [c Hc]; [rewrite (wf_cs g W); exact Hi|]. rewrite Hc.
  unfold keepb in K. rewrite (proj1 Ha), (proj2 Ha) in K. destruct v_spec as [L _]. pose proof (wf_ends g W i a (proj1 Ha)) as [Ep Es].
  rewrite (nth_error_nth' v false) by lia. destruct (nth (a_pred a) v false); [|reflexivity].
  rewrite (nth_error_nth' v false) by lia. cbn in K. rewrite K. reflexivity.
Qed.
Lemma step_kept : forall i a c g', alive (arcs g) (arcsPruned g) i a -> keepb i = true -> nth_error (comps g) i = Some c ->
  regen_arc v m (comps g) i a g' = addArc g' (rk v (a_pred a)) (rk v (a_succ a)) (a_words a) (a_score a) c.
Proof.
  intros i a c g' Ha K Hc. unfold regen_arc. rewrite Hc. unfold keepb in K. rewrite (proj1 Ha), (proj2 Ha) in K.
  apply andb_true_iff in K. destruct K as [K1 K2]. destruct v_spec as [L _]. pose proof (wf_ends g W i a (proj1 Ha)) as [Ep Es].
  rewrite (nth_error_nth' v false), K1 by lia. rewrite (nth_error_nth' v false), K2 by lia. rewrite !assoc_remap0, K1, K2. reflexivity.
Qed.
Lemma ginv_add : forall fs i a c g' g'', ginv fs i g' -> alive (arcs g) (arcsPruned g) i a -> keepb i = true -> nth_error (comps g) i = Some c ->
  addArc g' (rk v (a_pred a)) (rk v (a_succ a)) (a_words a) (a_score a) c = Some g'' -> ginv fs (S i) g''.
Proof.
  intros fs i a c g' g'' I Ha K Hc E. destruct (wf_addArc _ _ _ _ _ _ _ (g_wf fs i g' I) E) as [W'' [Q1 [Q2 [Q3 [Q4 [Q5 _]]]]]].
  constructor; auto.
  - rewrite Q1, kept_S, K, pick_app, (g_arcs fs i g' I). unfold pick at 3. cbn [flat_map]. rewrite (proj1 Ha). reflexivity.
  - rewrite Q2, kept_S, K, pick_app, (g_comps fs i g' I). unfold pick at 3. cbn [flat_map]. rewrite Hc. reflexivity.
  - rewrite Q3, kept_S, K, app_length, repeat_app, (g_pr fs i g' I). reflexivity.
  - rewrite Q4. apply (g_fin fs i g' I).
  - rewrite Q5. apply (g_init fs i g' I).
Qed.
Lemma ginv_skip : forall fs i g', keepb i = false -> ginv fs i g' -> ginv fs (S i) g'.
Proof. intros fs i g' K I. destruct I. constructor; auto; rewrite kept_S, K, app_nil_r; auto. Qed.
Lemma keepb_pruned : forall i, nth_error (arcsPruned g) i = Some true -> keepb i = false.
Proof. intros i H. unfold keepb. rewrite H. destruct (nth_error (arcs g) i); reflexivity. Qed.
(** whatever the outcome of the loop, if it has one *)
Lemma regen_partial : forall fs k j g1 g', for_arcs g (regen_arc v m (comps g)) (seq j k) g1 = Some g' -> j + k = length (arcs g) -> ginv fs j g1 -> ginv fs (length (arcs g)) g'.
Proof.
  intros fs k; induction k as [|k IH]; intros j g1 g' H Hk I; cbn [seq for_arcs] in H.
  - injection H as <-. replace (length (arcs g)) with j by lia. exact I.
  - destruct (nth_error (arcsPruned g) j) as [b|] eqn:Eb; [|discriminate]. destruct b.
    + apply (IH (S j) g1 g' H); [lia|]. apply ginv_skip; [apply keepb_pruned; exact Eb|exact I].
    + destruct (nth_error (arcs g) j) as [a|] eqn:Ea; [|discriminate].
      destruct (regen_arc v m (comps g) j a g1) as [g2|] eqn:E; [|discriminate].
      apply (IH (S j) g2 g' H); [lia|]. pose proof (conj Ea Eb : alive (arcs g) (arcsPruned g) j a) as Ha.
      destruct (keepb j) eqn:K.
      * destruct (nth_ex _ (comps g) j) as [c Hc]; [rewrite (wf_cs g W); apply (nth_lt _ _ _ _ Ea)|].
        rewrite (step_kept j a c g1 Ha K Hc) in E. apply (ginv_add fs j a c g1 g2 I Ha K Hc E).
      * rewrite (step_not_kept j a g1 Ha K) in E. injection E as <-. apply ginv_skip; auto.
Qed.
Lemma regen_finals_spec : forall fs g0 s', In s' (finals (regen_finals fs m g0)) <-> In s' (finals g0) \/ exists s, In s fs /\ nth s v false = true /\ s' = rk v s.
Proof.
  intros fs. unfold regen_finals. induction fs as [|s fs IH]; intros g0 s'; cbn [fold_left].
  - split; [auto|]. intros [H|[s [[] _]]]; auto.
  - rewrite IH, assoc_remap0. destruct (nth s v false) eqn:E; cbn [addFinalState finals].
    + rewrite set_insert_In. split.
      * intros [[H|H]|[t [H1 H2]]]; [right; exists s; split; [left; auto|auto]|auto|right; exists t; split; [right; auto|auto]].
      * intros [H|[t [[<-|H1] [H2 H3]]]]; [auto|auto|right; exists t; auto].
    + split.
      * intros [H|[t [H1 H2]]]; [auto|right; exists t; split; [right; auto|auto]].
      * intros [H|[t [[<-|H1] [H2 H3]]]]; [auto|congruence|right; exists t; auto].
Qed.
Lemma regen_finals_other : forall fs g0, wf g0 -> let g1 := regen_finals fs m g0 in
  wf g1 /\ arcs g1 = arcs g0 /\ comps g1 = comps g0 /\ arcsPruned g1 = arcsPruned g0 /\ initScore g1 = initScore g0 /\ states g1 = states g0.
Proof.
  intros fs. unfold regen_finals. induction fs as [|s fs IH]; intros g0 W0; cbn [fold_left]; [auto 10|].
  destruct (assoc s m) as [s'|].
  - destruct (IH (addFinalState g0 s')) as [Q1 Q2]; [|split; [exact Q1|exact Q2]]. destruct W0. constructor; cbn; auto. apply set_insert_sorted; auto.
  - apply IH; exact W0.
Qed.
Definition start : wg := regen_finals (finals g) m {| arcs := []; arcsPruned := []; states := []; finals := []; comps := []; initScore := initScore g |}.
Lemma start_ginv : ginv (finals start) 0 start.
Proof.
  destruct (regen_finals_other (finals g) {| arcs := []; arcsPruned := []; states := []; finals := []; comps := []; initScore := initScore g |}) as [Q1 [Q2 [Q3 [Q4 [Q5 _]]]]].
  - constructor; cbn; auto; try (intros [|i] a E; discriminate). constructor.
  - constructor; auto.
Qed.
(** paths of the new graph against paths of the old one *)
Variable g' : wg.
Hypothesis G : ginv (finals start) (length (arcs g)) g'.
Notation K := (kept (length (arcs g))).
Lemma new_arc : forall j i, nth_error K j = Some i -> nth_error (arcs g') j = option_map ren (nth_error (arcs g) i) /\
  nth_error (comps g') j = nth_error (comps g) i /\ nth_error (arcsPruned g') j = Some false.
Proof.
  intros j i H. rewrite (g_arcs _ _ _ G), (g_comps _ _ _ G), (g_pr _ _ _ G).
  pose proof (kept_lt (length (arcs g)) (le_n _)) as KL.
  rewrite !pick_nth, H by (rewrite ?(wf_cs g W); exact KL). split; [reflexivity|]. split; [destruct (nth_error (comps g) i); reflexivity|].
  apply nth_repeat_lt. apply (nth_lt _ _ _ _ H).
Qed.
Lemma kept_In : forall i, In i K <-> exists a, alive (arcs g) (arcsPruned g) i a /\ nth (a_pred a) v false = true /\ nth (a_succ a) v false = true.
Proof.
  intros i. unfold kept. rewrite filter_In, in_seq. unfold keepb. split.
  - intros [_ H]. destruct (nth_error (arcs g) i) as [a|] eqn:Ea; [|discriminate]. destruct (nth_error (arcsPruned g) i) as [[|]|] eqn:Eb; try discriminate.
    apply andb_true_iff in H. exists a. unfold alive. tauto.
  - intros [a [[Ha Hb] [H1 H2]]]. rewrite Ha, Hb, H1, H2. split; [apply nth_lt in Ha; lia|reflexivity].
Qed.
Lemma path_to_new : forall s p t, path (arcs g) (arcsPruned g) s p t -> (forall i, In i p -> In i K) ->
  exists p', path (arcs g') (arcsPruned g') (rk v s) p' (rk v t) /\ labels g' p' = labels g p /\ pscore (arcs g') p' = pscore (arcs g) p.
Proof.
  intros s p t Hp. induction Hp as [s|i a p t Ha Hp IH]; intros H.
  - exists []. split; [constructor|auto].
  - destruct IH as [p' [Q1 [Q2 Q3]]]; [intros; apply H; right; auto|].
    destruct (In_nth_error K i (H i (or_introl eq_refl))) as [j Hj]. destruct (new_arc j i Hj) as [N1 [N2 N3]]. rewrite (proj1 Ha) in N1. cbn in N1.
    exists (j :: p'). split; [|split].
    + change (rk v (a_pred a)) with (a_pred (ren a)). constructor; [split; auto|exact Q1].
    + unfold labels in *. cbn [map]. rewrite N1, N2, (proj1 Ha), Q2. reflexivity.
    + cbn [pscore]. rewrite N1, (proj1 Ha), Q3. reflexivity.
Qed.
Lemma path_from_new : forall s' p' t', path (arcs g') (arcsPruned g') s' p' t' -> forall s, s' = rk v s -> nth s v false = true ->
  exists p t, path (arcs g) (arcsPruned g) s p t /\ t' = rk v t /\ nth t v false = true /\ labels g p = labels g' p' /\ pscore (arcs g) p = pscore (arcs g') p'.
Proof.
  intros s' p' t' Hp. induction Hp as [s'|j b p' t' Hb Hp IH]; intros s Es Us.
  - exists [], s. split; [constructor|auto].
  - destruct Hb as [Hb _]. assert (Hj : j < length K).
    { apply nth_lt in Hb. rewrite (g_arcs _ _ _ G) in Hb. assert (L : length (pick (arcs g) ren K) = length K); [|lia].
      pose proof (kept_lt (length (arcs g)) (le_n _)) as KL. clear -KL. induction K as [|i l IHl]; [reflexivity|]. inversion KL; subst.
      unfold pick. cbn [flat_map]. destruct (nth_ex _ (arcs g) i H1) as [x ->]. cbn. f_equal. apply IHl; auto. }
    destruct (nth_ex _ K j Hj) as [i Hi]. destruct (new_arc j i Hi) as [N1 [N2 N3]].
    destruct (proj1 (kept_In i) (nth_error_In _ _ Hi)) as [a [Ha [U1 U2]]]. rewrite (proj1 Ha) in N1. cbn in N1. rewrite Hb in N1. injection N1 as ->.
    cbn [ren a_pred] in Es. cbn [ren a_succ] in IH.
    assert (a_pred a = s) by (apply (rk_inj v); auto). subst s.
    destruct (IH (a_succ a) eq_refl U2) as [p [t [Q1 [Q2 [Q3 [Q4 Q5]]]]]].
    exists (i :: p), t. split; [constructor; auto|]. split; [exact Q2|]. split; [exact Q3|]. split.
    + unfold labels in *. cbn [map]. rewrite Hb, N2, (proj1 Ha), Q4. reflexivity.
    + cbn [pscore]. rewrite Hb, (proj1 Ha), Q5. reflexivity.
Qed.
Lemma finals_new : forall s', In s' (finals g') <-> exists s, In s (finals g) /\ nth s v false = true /\ s' = rk v s.
Proof. intros s'. rewrite (g_fin _ _ _ G). unfold start. rewrite regen_finals_spec. cbn. split; [intros [[]|H]; exact H|auto]. Qed.
(** all states of a complete path are useful *)
Lemma complete_kept : forall p t, path (arcs g) (arcsPruned g) 0 p t -> In t (finals g) -> p <> [] ->
  (forall i, In i p -> In i K) /\ nth 0 v false = true /\ nth t v false = true.
Proof.
  intros p t Hp Ht Hne. destruct v_spec as [L V].
  assert (Hgoal : goal g t).
  { split; [exact Ht|]. destruct (@exists_last _ p Hne) as [q [i E]]. rewrite E in Hp. apply path_app_inv in Hp. destruct Hp as [u [_ Hu]].
    inversion Hu as [|i' a p' t' Ha Hp']; subst. inversion Hp'; subst. exists i, a. auto. }
  assert (Mid : forall s, reaches (arcs g) (arcsPruned g) 0 s -> reaches (arcs g) (arcsPruned g) s t -> nth s v false = true).
  { intros s R1 R2. apply V; [destruct R1 as [q Hq]; apply (path_end_lt g 0 q s W HN Hq)|]. right. split; [exact R1|]. exists t. auto. }
  split; [|split].
  - intros i Hi. apply in_split in Hi. destruct Hi as [l1 [l2 E]]. subst p. apply path_app_inv in Hp. destruct Hp as [u [H1 H2]].
    inversion H2 as [|i' a p' t' Ha Hp']; subst. apply kept_In. exists a. split; [exact Ha|]. split; apply Mid.
    + exists l1; exact H1.
    + exists (i :: l2). constructor; auto.
    + exists (l1 ++ [i]). eapply path_app; [exact H1|]. constructor; [exact Ha|constructor].
    + exists l2; exact Hp'.
  - apply Mid; [exists []; constructor|exists p; exact Hp].
  - apply Mid; [exists p; exact Hp|exists []; constructor].
Qed.
Lemma regen_forward : forall p t, path (arcs g) (arcsPruned g) 0 p t -> In t (finals g) -> p <> [] ->
  exists p' t', path (arcs g') (arcsPruned g') 0 p' t' /\ In t' (finals g') /\ p' <> [] /\ labels g' p' = labels g p /\ pscore (arcs g') p' = pscore (arcs g) p.
Proof.
  intros p t Hp Ht Hne. destruct (complete_kept p t Hp Ht Hne) as [Q1 [Q2 Q3]]. destruct (path_to_new 0 p t Hp Q1) as [p' [R1 [R2 R3]]].
  exists p', (rk v t). split; [exact R1|]. split; [apply finals_new; exists t; auto|]. split; [|auto].
  intros ->. destruct p; [congruence|discriminate].
Qed.
Hypothesis Hreach : forall t, In t (finals g) -> entered g t -> reaches (arcs g) (arcsPruned g) 0 t.
Lemma useful_reached : forall s, useful g s -> reaches (arcs g) (arcsPruned g) 0 s /\ exists t, reaches (arcs g) (arcsPruned g) s t /\ goal g t.
Proof.
  intros s [[H1 H2]|H]; [|exact H]. split; [apply Hreach; auto|]. exists s. split; [exists []; constructor|split; auto].
Qed.
Lemma zero_useful : forall s, s < length (states g) -> nth s v false = true -> rk v s = 0 -> s = 0.
Proof.
  intros s Hs Us R. destruct v_spec as [L V]. apply (V s Hs) in Us. apply useful_reached in Us. destruct Us as [R0 [t [Rt Gt]]].
  destruct (Nat.eq_dec s 0) as [|Hne]; [auto|]. exfalso. assert (U0 : nth 0 v false = true).
  { apply (V 0 HN). right. split; [exists []; constructor|]. exists t. split; [|exact Gt]. destruct R0 as [p0 P0], Rt as [p1 P1]. exists (p0 ++ p1). eapply path_app; eauto. }
  pose proof (rk_lt v 0 s ltac:(lia) U0). lia.
Qed.
Lemma regen_backward : forall p' t', path (arcs g') (arcsPruned g') 0 p' t' -> In t' (finals g') -> p' <> [] ->
  exists p t, path (arcs g) (arcsPruned g) 0 p t /\ In t (finals g) /\ p <> [] /\ labels g p = labels g' p' /\ pscore (arcs g) p = pscore (arcs g') p'.
Proof.
  intros p' t' Hp Ht Hne. destruct v_spec as [L V].
  assert (U0 : nth 0 v false = true).
  { inversion Hp as [|j b q t'' Hb Hq E0 E1 E2]; [congruence|].
    assert (Hb' := proj1 Hb). rewrite (g_arcs _ _ _ G), pick_nth in Hb' by (apply kept_lt; lia).
    destruct (nth_error K j) as [i|] eqn:Ei; [|discriminate]. destruct (proj1 (kept_In i) (nth_error_In _ _ Ei)) as [a [Ha [U1 U2]]].
    rewrite (proj1 Ha) in Hb'. cbn in Hb'. injection Hb' as <-. cbn [ren a_pred] in E0.
    pose proof (wf_ends g W i a (proj1 Ha)) as [Ep _]. pose proof (zero_useful (a_pred a) Ep U1 E0) as Z0. rewrite Z0 in U1. cbn [ren a_pred]. rewrite E0. exact U1. }
  destruct (path_from_new 0 p' t' Hp 0) as [p [t [Q1 [Q2 [Q3 [Q4 Q5]]]]]]; [reflexivity|exact U0|].
  apply finals_new in Ht. destruct Ht as [t2 [F1 [F2 F3]]]. assert (t = t2) by (apply (rk_inj v); auto; congruence). subst t2.
  exists p, t. split; [exact Q1|]. split; [exact F1|]. split; [|auto]. intros ->. destruct p'; [congruence|discriminate].
Qed.
End Regen.
(** definedness when every entered final state is reachable *)
Section Defined.
Variable g : wg.
Hypothesis W : wf g.
Hypothesis T : topological (arcs g) (arcsPruned g).
Hypothesis F : Forall (fun s => s < length (states g)) (finals g).
Hypothesis HN : 0 < length (states g).
Variable v : list bool.
Hypothesis Hv : usefulVec g = Some v.
Hypothesis Hreach : forall t, In t (finals g) -> entered g t -> reaches (arcs g) (arcsPruned g) 0 t.
(** states known so far cover the kept arcs *)
Lemma addArc_ok : forall g1 p s w z c, p < Nat.max (length (states g1)) (S s) -> exists g2, addArc g1 p s w z c = Some g2.
Proof.
  intros g1 p s w z c H. unfold addArc. set (st0 := states g1 ++ _).
  assert (L0 : length st0 = Nat.max (length (states g1)) (S s)) by (unfold st0; rewrite app_length, repeat_length; lia).
  destruct (upd_ok _ p (add_succ (length (arcs g1))) st0) as [st1 E1]; [lia|]. rewrite E1. apply upd_some in E1. destruct E1 as [_ [L1 _]].
  destruct (upd_ok _ s (add_pred (length (arcs g1))) st1) as [st2 E2]; [lia|]. rewrite E2. eauto.
Qed.
Lemma regen_total : exists g', for_arcs g (regen_arc v (remap v 0 INITIAL_STATE) (comps g)) (fwd g) (start g v) = Some g'.
Proof.
  destruct (for_fwd_all g (wf_pr g W) (regen_arc v (remap v 0 INITIAL_STATE) (comps g)) (ginv g v (finals (start g v)))) with (v := start g v) as [g' [E _]].
  - intros i g' _ Hp I. apply ginv_skip; auto. apply keepb_pruned; auto.
  - intros i a g1 Ha I. destruct (keepb g v i) eqn:K.
    + destruct (nth_ex _ (comps g) i) as [c Hc]; [rewrite (wf_cs g W); apply (nth_lt _ _ _ _ (proj1 Ha))|].
      rewrite (step_kept g W T F HN v Hv i a c g1 Ha K Hc).
      destruct (addArc_ok g1 (rk v (a_pred a)) (rk v (a_succ a)) (a_words a) (a_score a) c) as [g2 E].
      { (* the predecessor is the initial state or the successor of an earlier kept arc *)
        unfold keepb in K. rewrite (proj1 Ha), (proj2 Ha) in K. apply andb_true_iff in K. destruct K as [K1 K2].
        destruct (v_spec g W T F HN v Hv) as [L V]. pose proof (wf_ends g W i a (proj1 Ha)) as [Ep Es].
        pose proof (proj1 (V _ Ep) K1) as U. apply (useful_reached g Hreach) in U. destruct U as [[p Hp] [t [[q Hq] Gt]]].
        destruct p as [|k p] using rev_ind.
        - inversion Hp; subst. unfold rk. cbn. unfold count_true. cbn. lia.
        - clear IHp. apply path_app_inv in Hp. destruct Hp as [u [H1 H2]]. inversion H2 as [|k' b p' t' Hb Hp']; subst. assert (H3 : a_succ b = a_pred a) by (inversion Hp'; congruence).
          assert (k < i) by (apply (T k i b a); auto).
          assert (Kk : In k (kept g v i)).
          { unfold kept. apply filter_In. split; [apply in_seq; lia|]. unfold keepb. rewrite (proj1 Hb), (proj2 Hb). rewrite H3, K1.
            assert (Ub : nth (a_pred b) v false = true); [|rewrite Ub; reflexivity]. pose proof (wf_ends g W k b (proj1 Hb)) as [Eb _].
            apply (V _ Eb). right. split; [exists p; exact H1|]. exists t. split; [|exact Gt]. exists (k :: q). constructor; [exact Hb|rewrite H3; exact Hq]. }
          destruct (In_nth_error _ _ Kk) as [j Hj].
          assert (Hn : nth_error (arcs g1) j = Some (ren v b)).
          { rewrite (g_arcs _ _ _ _ _ I), pick_nth; [rewrite Hj, (proj1 Hb); reflexivity|]. pose proof (nth_lt _ _ _ _ (proj1 Ha)). apply kept_lt; try assumption; lia. }
          pose proof (wf_ends g1 (g_wf _ _ _ _ _ I) j _ Hn) as [_ Q]. cbn [ren a_succ] in Q. rewrite H3 in Q. lia. }
      exists g2. split; [exact E|]. apply (ginv_add g v _ i a c g1 g2 I Ha K Hc E).
    + exists g1. split; [apply (step_not_kept g W T F HN v Hv); auto|apply ginv_skip; auto].
  - apply start_ginv.
  - eauto.
Qed.
End Defined.
