(** A-star n-best search (nbSearch): soundness, distinctness, optimality, termination. *)
From Coq Require Import ZArith List Bool Lia Arith Sorted Permutation.
From Verif Require Import WgSpec WgModel WgBase WgHeurProofs.
Import ListNotations.
Open Scope nat_scope.

Definition desc (x y : shyp) : Prop := (fst y <= fst x)%Z.
Definition prefix (x y : list nat) : Prop := exists r, y = x ++ r.
Lemma prefix_refl : forall x, prefix x x. Proof. intros x; exists []; rewrite app_nil_r; reflexivity. Qed.
Lemma prefix_snoc : forall y h i, prefix y (h ++ [i]) -> y = h ++ [i] \/ prefix y h.
Proof.
  intros y h i [r E]. destruct r as [|k r]; [left; rewrite app_nil_r in E; auto|].
  right. destruct (@exists_last _ (k :: r)) as [r' [z Ez]]; [discriminate|]. rewrite Ez in E. rewrite app_assoc in E.
  apply app_inj_tail in E. destruct E as [-> _]. exists r'. reflexivity.
Qed.
Definition pf (A : list (list nat)) : Prop := NoDup A /\ forall x y, In x A -> In y A -> prefix x y -> x = y.
Lemma pf_perm : forall A B, Permutation A B -> pf A -> pf B.
Proof.
  intros A B P [H1 H2]. split; [apply (Permutation_NoDup P H1)|]. intros x y Hx Hy. apply Permutation_sym in P.
  apply H2; eapply Permutation_in; eauto.
Qed.
Lemma pf_expand : forall h R ids, pf (h :: R) -> NoDup ids -> pf (map (fun i => h ++ [i]) ids ++ R).
Proof.
  intros h R ids [H1 H2] Hi. inversion H1 as [|? ? N1 N2]; subst.
  assert (Q : forall i y, In y R -> prefix (h ++ [i]) y -> False).
  { intros i y Hy [r E]. assert (EQ : h = y); [|rewrite <- EQ in Hy; exact (N1 Hy)]. apply H2; [left; auto|right; auto|].
    exists ([i] ++ r). rewrite E, <- app_assoc. reflexivity. }
  assert (Q2 : forall i y, In y R -> prefix y (h ++ [i]) -> False).
  { intros i y Hy E. apply prefix_snoc in E. destruct E as [E|E].
    - apply (Q i y Hy). rewrite E. apply prefix_refl.
    - assert (EQ : y = h); [|rewrite EQ in Hy; exact (N1 Hy)]. apply H2; [right; auto|left; auto|exact E]. }
  split.
  - assert (M : NoDup (map (fun i => h ++ [i]) ids)).
    { apply FinFun.Injective_map_NoDup; auto. intros a b E. apply app_inj_tail in E. tauto. }
    induction ids as [|i ids IH]; cbn; [exact N2|]. inversion Hi; subst. inversion M; subst. constructor; [|apply IH; auto].
    rewrite in_app_iff. intros [E|E]; [auto|]. apply (Q i (h ++ [i]) E), prefix_refl.
  - intros x y Hx Hy E. rewrite in_app_iff, in_map_iff in Hx, Hy.
    destruct Hx as [[i [<- Hx]]|Hx], Hy as [[j [<- Hy]]|Hy].
    + destruct E as [r E]. apply (f_equal (skipn (length h))) in E. rewrite <- app_assoc in E.
      rewrite !skipn_app, !skipn_all, Nat.sub_diag in E. cbn in E. injection E as -> _. reflexivity.
    + destruct (Q i y Hy E).
    + destruct (Q2 j x Hx E).
    + apply H2; auto; right; auto.
Qed.
Lemma insert_perm : forall e st, Permutation (nb_insert e st) (e :: st).
Proof.
  intros e st; induction st as [|x st IH]; cbn; [reflexivity|]. destruct (fst x <? fst e)%Z; [reflexivity|].
  rewrite IH. apply perm_swap.
Qed.
Lemma insert_sorted : forall e st, StronglySorted desc st -> StronglySorted desc (nb_insert e st).
Proof.
  intros e st; induction st as [|x st IH]; intros H; cbn; [repeat constructor|]. inversion H as [|? ? H1 H2]; subst.
  destruct (Z.ltb_spec (fst x) (fst e)).
  - constructor; [exact H|]. constructor; [unfold desc; lia|]. eapply Forall_impl; [|exact H2]. unfold desc; cbn; intros; lia.
  - constructor; [apply IH; auto|]. apply Forall_forall. intros y Hy. apply (Permutation_in _ (insert_perm e st)) in Hy.
    destruct Hy as [<-|Hy]; [unfold desc; lia|]. rewrite Forall_forall in H2. apply H2; auto.
Qed.
Lemma firstn_sorted : forall (R : shyp -> shyp -> Prop) n l, StronglySorted R l -> StronglySorted R (firstn n l).
Proof.
  intros R n l; revert n; induction l as [|x l IH]; intros n H; destruct n; cbn; try constructor; inversion H; subst; auto.
  apply Forall_forall. intros y Hy. rewrite Forall_forall in H3. apply H3. rewrite <- (firstn_skipn n l). apply in_or_app; auto.
Qed.
Lemma push_spec : forall max e st st' d, nb_push max e st = (st', d) ->
  Permutation (st' ++ d) (e :: st) /\ (StronglySorted desc st -> StronglySorted desc st') /\
  (match max with None => d = [] | Some m => S (length st) <= m -> d = [] end).
Proof.
  intros max e st st' d H. unfold nb_push in H. destruct max as [m|]; injection H as <- <-.
  - split; [rewrite firstn_skipn; apply insert_perm|]. split; [intros S; apply firstn_sorted, insert_sorted, S|].
    intros L. apply skipn_all2. rewrite (Permutation_length (insert_perm e st)). exact L.
  - split; [rewrite app_nil_r; apply insert_perm|]. split; [apply insert_sorted|reflexivity].
Qed.
Lemma pushes_spec : forall max es st st' d, nb_pushes max es st = (st', d) ->
  Permutation (st' ++ d) (es ++ st) /\ (StronglySorted desc st -> StronglySorted desc st') /\
  (match max with None => d = [] | Some m => length es + length st <= m -> d = [] end).
Proof.
  intros max es; induction es as [|e es IH]; intros st st' d H; cbn in H.
  - injection H as <- <-. rewrite app_nil_r. split; [reflexivity|split; [auto|destruct max; auto]].
  - destruct (nb_push max e st) as [st1 d1] eqn:E1. destruct (nb_pushes max es st1) as [st2 d2] eqn:E2. injection H as <- <-.
    destruct (push_spec _ _ _ _ _ E1) as [P1 [S1 D1]]. destruct (IH _ _ _ E2) as [P2 [S2 D2]]. split; [|split; [auto|]].
    + rewrite (Permutation_app_comm d1 d2), app_assoc, P2. cbn. rewrite <- app_assoc, P1. apply Permutation_sym, Permutation_middle.
    + destruct max as [m|]; [|subst; reflexivity]. cbn. intros L. rewrite D1 in * by lia. cbn. apply D2.
      apply Permutation_length in P1. rewrite app_nil_r in P1. cbn in P1. lia.
Qed.

Section Search.
Variable g : wg.
Hypothesis W : wf g.
Hypothesis T : topological (arcs g) (arcsPruned g).
Hypothesis F : Forall (fun s => s < length (states g)) (finals g).
Hypothesis NE : arcs g <> [].
Variable heur : list Z.
Hypothesis Hheur : obtainNbSearchHeurInfo g = Some heur.
Notation P := (path (arcs g) (arcsPruned g)).
Notation sc := (pscore (arcs g)).
Notation hv s := (nth s heur 0%Z).
Notation n := (length (arcs g)).

Lemma heur_facts : length heur = length (states g) /\ forall s, s < length (states g) -> is_max (completion g 0 s) (hv s).
Proof. destruct (heur_max g W T F) as [h [E Q]]. rewrite Hheur in E. injection E as <-. exact Q. Qed.
Lemma states_pos : 0 < length (states g).
Proof.
  destruct (arcs g) as [|a l] eqn:E; [congruence|]. assert (Ha : nth_error (arcs g) 0 = Some a) by (rewrite E; reflexivity).
  pose proof (wf_ends g W 0 a Ha). lia.
Qed.
Lemma heur_mono : forall i a, alive (arcs g) (arcsPruned g) i a -> (a_score a + hv (a_succ a) <= hv (a_pred a))%Z.
Proof.
  intros i a Ha. destruct (wf_ends g W i a (proj1 Ha)) as [Ep Es]. destruct heur_facts as [_ H].
  destruct (H _ Es) as [[p [t [Hp E]]] _]. destruct (H _ Ep) as [_ Hub]. apply Hub.
  exists (i :: p), t. split; [constructor; auto|]. rewrite E. cbn. rewrite (proj1 Ha). lia.
Qed.
Lemma heur_path : forall s p t, s < length (states g) -> P s p t -> (sc p + hv t <= hv s)%Z.
Proof.
  intros s p t Hs Hp. induction Hp as [s|i a p t Ha Hp IH]; [cbn; lia|].
  pose proof (heur_mono i a Ha). pose proof (IH (proj2 (wf_ends g W i a (proj1 Ha)))). cbn [pscore]. rewrite (proj1 Ha). lia.
Qed.
Lemma heur_final_ge : forall t, In t (finals g) -> (0 <= hv t)%Z.
Proof.
  intros t Ht. pose proof F as F'. rewrite Forall_forall in F'. destruct heur_facts as [_ H]. destruct (H t (F' t Ht)) as [_ Hub]. apply Hub.
  exists [], t. split; [constructor|]. unfold end_value. rewrite (proj2 (existsb_In t (finals g)) Ht). reflexivity.
Qed.
Lemma last_state_path : forall h t, P 0 h t -> last_state g h = Some t.
Proof.
  intros h t H. unfold last_state. destruct h as [|i h] using rev_ind; [inversion H; reflexivity|].
  rewrite rev_app_distr. cbn. apply path_app_inv in H. destruct H as [u [_ H]]. inversion H as [|i' a p t' Ha Hp]; subst.
  inversion Hp; subst. rewrite (proj1 Ha). reflexivity.
Qed.
Definition valid (e : shyp) : Prop := exists t, P 0 (snd e) t /\ fst e = (initScore g + sc (snd e) + hv t)%Z.
Definition listed (e : shyp) : Prop := complete (arcs g) (arcsPruned g) (finals g) (snd e) /\ fst e = (initScore g + sc (snd e))%Z.
Definition hyps (s : nbst) : list (list nat) := map snd (stack s ++ done s ++ dropped s).
Record nb_inv (len : nat) (s : nbst) : Prop := {
  i_valid : Forall valid (stack s ++ dropped s);
  i_listed : Forall listed (done s);
  i_sorted : StronglySorted desc (stack s);
  i_dsorted : StronglySorted desc (done s);
  i_pf : pf (hyps s);
  i_len : length (done s) <= len;
  i_cover : forall p, complete (arcs g) (arcsPruned g) (finals g) p -> first_final (arcs g) (finals g) p -> exists x, In x (hyps s) /\ prefix x p
}.
Lemma expand_spec : forall g0 h ids, (forall i, In i ids -> exists a, alive (arcs g) (arcsPruned g) i a) ->
  exists es, expand g heur g0 h ids = Some es /\ map snd es = map (fun i => h ++ [i]) ids /\
    forall e, In e es -> exists i a, In i ids /\ alive (arcs g) (arcsPruned g) i a /\ snd e = h ++ [i] /\ fst e = (g0 + a_score a + hv (a_succ a))%Z.
Proof.
  intros g0 h ids; induction ids as [|i ids IH]; intros H; cbn [expand].
  - exists []. split; [reflexivity|split; [reflexivity|intros e []]].
  - destruct (H i (or_introl eq_refl)) as [a Ha]. rewrite (proj2 Ha).
    destruct IH as [es [E [M Q]]]; [intros; apply H; right; auto|]. rewrite E, (proj1 Ha).
    destruct heur_facts as [L _]. destruct (wf_ends g W i a (proj1 Ha)) as [_ Es].
    rewrite (nth_error_nth' heur 0%Z) by lia. eexists. split; [reflexivity|]. split; [cbn; rewrite M; reflexivity|].
    intros e [<-|He].
    + exists i, a. cbn. auto.
    + destruct (Q e He) as [i' [a' [Q1 Q2]]]. exists i', a'. split; [right; exact Q1|exact Q2].
Qed.
Lemma hyp_complete_spec : forall h t, P 0 h t -> hypIsComplete g h = Some (match h with [] => false | _ => stateIsFinal g t end).
Proof. intros h t H. unfold hypIsComplete. destruct h; [reflexivity|]. rewrite (last_state_path _ _ H). reflexivity. Qed.

(** the two kinds of iterations that change the state *)
Inductive nb_kind (max : option nat) (s s' : nbst) : Prop :=
| k_complete f h st t : stack s = (f, h) :: st -> P 0 h t -> In t (finals g) -> h <> [] ->
    stack s' = st -> done s' = nb_insert ((f - hv t)%Z, h) (done s) -> dropped s' = dropped s -> nb_kind max s s'
| k_expand f h st t ids es d : stack s = (f, h) :: st -> P 0 h t -> (h <> [] -> ~ In t (finals g)) ->
    getArcIdsToSuccStates g t = Some ids -> expand g heur (f - hv t)%Z h ids = Some es ->
    nb_pushes max es st = (stack s', d) -> done s' = done s -> dropped s' = dropped s ++ d -> nb_kind max s s'.
Lemma iter_cases : forall max len s, nb_inv len s ->
  (nb_iter g heur max len s = Some (inr s) /\ (len <= length (done s) \/ stack s = [])) \/
  (length (done s) < len /\ exists s', nb_iter g heur max len s = Some (inl s') /\ nb_kind max s s').
Proof.
  intros max len s I. unfold nb_iter. destruct (Nat.leb_spec len (length (done s))) as [Hl|Hl]; [left; auto|].
  destruct (stack s) as [|[f h] st] eqn:Es; [left; auto|]. right. split; [exact Hl|].
  pose proof (i_valid len s I) as V. rewrite Es in V. apply Forall_cons_iff in V. destruct V as [V1 V2]. destruct V1 as [t [Hp Hf]]. cbn in Hp, Hf.
  rewrite (last_state_path h t Hp). destruct heur_facts as [L _].
  assert (Ht : t < length (states g)) by (apply (path_end_lt g 0 h t W states_pos Hp)).
  rewrite (nth_error_nth' heur 0%Z) by lia. rewrite (hyp_complete_spec h t Hp).
  destruct (match h with [] => false | _ => stateIsFinal g t end) eqn:C.
  - assert (Hh : h <> []) by (destruct h; [discriminate|discriminate]).
    assert (Hfin : In t (finals g)) by (destruct h; [discriminate|]; apply existsb_In; exact C).
    eexists. split; [reflexivity|]. eapply (k_complete max s _ f h st t); cbn; auto.
  - assert (Hn : h <> [] -> ~ In t (finals g)).
    { intros Hh Hin. destruct h; [congruence|]. apply existsb_In in Hin. unfold stateIsFinal in C. congruence. }
    rewrite getSucc_spec by exact W. set (ids := filter _ _).
    assert (Eids : getArcIdsToSuccStates g t = Some ids) by (apply getSucc_spec; exact W).
    destruct (expand_spec (f - hv t)%Z h ids) as [es [E _]].
    { intros i Hi. destruct (proj1 (succ_ids_In g t ids W Eids i) Hi) as [a [Ha _]]. eauto. }
    rewrite E. destruct (nb_pushes max es st) as [st' d] eqn:Ep. eexists. split; [reflexivity|].
    eapply (k_expand max s _ f h st t ids es d); cbn; eauto.
Qed.
Lemma hyps_cons : forall s f h st, stack s = (f, h) :: st -> hyps s = h :: map snd (st ++ done s ++ dropped s).
Proof. intros s f h st E. unfold hyps. rewrite E. reflexivity. Qed.
Lemma ids_nodup : forall t ids, getArcIdsToSuccStates g t = Some ids -> NoDup ids.
Proof.
  intros t ids H. rewrite getSucc_spec in H by exact W. injection H as <-. apply NoDup_filter. unfold leaving. apply NoDup_filter, seq_NoDup.
Qed.
Lemma hyps_complete_perm : forall s s' z h st, hyps s = h :: map snd (st ++ done s ++ dropped s) ->
  stack s' = st -> done s' = nb_insert (z, h) (done s) -> dropped s' = dropped s -> Permutation (hyps s') (hyps s).
Proof.
  intros s s' z h st E E1 E2 E3. rewrite E. unfold hyps. rewrite E1, E2, E3.
  change (h :: map snd (st ++ done s ++ dropped s)) with (map snd ((z, h) :: st ++ done s ++ dropped s)).
  apply Permutation_map. rewrite (insert_perm (z, h) (done s)). cbn [app]. apply Permutation_sym, Permutation_middle.
Qed.
Lemma hyps_expand_perm : forall max s s' h st es d ids,
  nb_pushes max es st = (stack s', d) -> done s' = done s -> dropped s' = dropped s ++ d -> map snd es = map (fun i => h ++ [i]) ids ->
  Permutation (hyps s') (map (fun i => h ++ [i]) ids ++ map snd (st ++ done s ++ dropped s)).
Proof.
  intros max s s' h st es d ids Ep E2 E3 M. destruct (pushes_spec _ _ _ _ _ Ep) as [Q _]. unfold hyps. rewrite E2, E3, <- M, <- map_app.
  apply Permutation_map. rewrite app_assoc. rewrite (app_assoc es st), <- Q.
  rewrite (Permutation_app_comm (dropped s) d). rewrite <- !app_assoc. apply Permutation_app_head. rewrite !app_assoc.
  apply Permutation_app_tail, Permutation_app_comm.
Qed.
Lemma inv_step : forall max len s s', nb_inv len s -> length (done s) < len -> nb_kind max s s' -> nb_inv len s'.
Proof.
  intros max len s s' I Hlen K. destruct K as [f h st t Es Hp Hfin Hh E1 E2 E3|f h st t ids es d Es Hp Hn Eids Ee Ep E2 E3].
  - pose proof (hyps_cons s f h st Es) as Hy.
    pose proof (hyps_complete_perm s s' (f - hv t)%Z h st Hy E1 E2 E3) as PM.
    pose proof (i_valid len s I) as V. rewrite Es in V. apply Forall_cons_iff in V. destruct V as [V1 V2].
    destruct V1 as [t' [Hp' Hf]]. cbn in Hp', Hf. assert (t' = t) by (apply (path_det _ _ _ _ _ _ Hp' Hp)). subst t'.
    pose proof (i_sorted len s I) as So. rewrite Es in So. apply StronglySorted_inv in So. destruct So as [So1 So2].
    constructor.
    + rewrite E3, E1. exact V2.
    + rewrite E2. apply Forall_forall. intros e He. apply (Permutation_in _ (insert_perm _ _)) in He. destruct He as [<-|He].
      * split; cbn; [split; [exact Hh|eauto]|]. rewrite Hf. lia.
      * pose proof (i_listed len s I) as Q. rewrite Forall_forall in Q. apply Q; exact He.
    + rewrite E1. exact So1.
    + rewrite E2. apply insert_sorted, (i_dsorted len s I).
    + apply (pf_perm (hyps s)); [apply Permutation_sym, PM|apply (i_pf len s I)].
    + rewrite E2, (Permutation_length (insert_perm _ _)). cbn. lia.
    + intros p Hc Hff. destruct (i_cover len s I p Hc Hff) as [x [Hx Px]]. exists x. split; [|exact Px].
      eapply Permutation_in; [apply Permutation_sym, PM|exact Hx].
  - pose proof (hyps_cons s f h st Es) as Hy.
    assert (Al : forall i, In i ids -> exists a, alive (arcs g) (arcsPruned g) i a /\ a_pred a = t) by (intros i Hi; apply (succ_ids_In g t ids W Eids i); exact Hi).
    destruct (expand_spec (f - hv t)%Z h ids) as [es' [Ee' [M Q]]]; [intros i Hi; destruct (Al i Hi) as [a [Ha _]]; eauto|].
    rewrite Ee in Ee'. injection Ee' as <-.
    pose proof (hyps_expand_perm max s s' h st es d ids Ep E2 E3 M) as PM.
    destruct (pushes_spec _ _ _ _ _ Ep) as [PP [SS _]].
    pose proof (i_valid len s I) as V. rewrite Es in V. apply Forall_cons_iff in V. destruct V as [V1 V2].
    destruct V1 as [t' [Hp' Hf]]. cbn in Hp', Hf. assert (t' = t) by (apply (path_det _ _ _ _ _ _ Hp' Hp)). subst t'.
    pose proof (i_sorted len s I) as So. rewrite Es in So. apply StronglySorted_inv in So. destruct So as [So1 So2].
    assert (Ves : forall e, In e es -> valid e).
    { intros e He. destruct (Q e He) as [i [a [Hi [Ha [Q1 Q2]]]]]. destruct (Al i Hi) as [a' [Ha' Et]].
      assert (a' = a) by (destruct Ha as [A1 _], Ha' as [A2 _]; congruence). subst a'.
      exists (a_succ a). rewrite Q1. split.
      - apply (path_app _ _ 0 h t [i] (a_succ a) Hp). rewrite <- Et. constructor; [exact Ha|constructor].
      - rewrite Q2, pscore_app. cbn. rewrite (proj1 Ha). lia. }
    constructor.
    + apply Forall_forall. intros e He. rewrite E3 in He.
      assert (He' : In e ((stack s' ++ d) ++ dropped s)).
      { rewrite !in_app_iff in He |- *. tauto. }
      rewrite in_app_iff in He'. destruct He' as [He'|He'].
      * apply (Permutation_in _ PP) in He'. apply in_app_or in He'. destruct He' as [He'|He']; [auto|].
        rewrite Forall_forall in V2. apply V2. apply in_or_app; auto.
      * rewrite Forall_forall in V2. apply V2. apply in_or_app; auto.
    + rewrite E2. apply (i_listed len s I).
    + apply SS, So1.
    + rewrite E2. apply (i_dsorted len s I).
    + apply (pf_perm (map (fun i => h ++ [i]) ids ++ map snd (st ++ done s ++ dropped s))); [apply Permutation_sym, PM|].
      apply pf_expand; [rewrite <- Hy; apply (i_pf len s I)|apply (ids_nodup t ids Eids)].
    + rewrite E2. apply (i_len len s I).
    + intros p Hc Hff. destruct (i_cover len s I p Hc Hff) as [x [Hx Px]]. rewrite Hy in Hx. destruct Hx as [<-|Hx].
      * destruct Px as [r Er]. destruct Hc as [Hpn [u [Hu Hpu]]]. rewrite Er in Hpu. apply path_app_inv in Hpu.
        destruct Hpu as [t2 [Hh2 Hr]]. assert (t2 = t) by (apply (path_det _ _ _ _ _ _ Hh2 Hp)). subst t2.
        destruct r as [|i r].
        -- inversion Hr; subst. rewrite app_nil_r in Hpn. destruct (Hn Hpn Hu).
        -- inversion Hr as [|i' a p' t' Ha Hr']; subst. exists (h ++ [i]). split.
           ++ eapply Permutation_in; [apply Permutation_sym, PM|]. apply in_or_app; left. apply in_map_iff. exists i. split; [reflexivity|].
              apply (succ_ids_In g (a_pred a) ids W Eids i). eauto.
           ++ exists r. rewrite <- app_assoc. reflexivity.
      * exists x. split; [|exact Px]. eapply Permutation_in; [apply Permutation_sym, PM|]. apply in_or_app; right; exact Hx.
Qed.
(** termination *)
Definition weight (h : list nat) : nat := (S n) ^ (n - length h).
Definition measure (st : list shyp) : nat := list_sum (map (fun e => weight (snd e)) st).
Lemma measure_perm : forall a b, Permutation a b -> measure a = measure b.
Proof.
  intros a b H. unfold measure, list_sum. induction H; cbn [map fold_right]; lia.
Qed.
Lemma measure_app : forall a b, measure (a ++ b) = measure a + measure b.
Proof. intros a b. unfold measure. rewrite map_app, list_sum_app. reflexivity. Qed.
Lemma sorted_len : forall p k m, StronglySorted lt p -> Forall (fun i => k <= i < m) p -> k <= m -> length p + k <= m.
Proof.
  induction p as [|i p IH]; intros k m H1 H2 Hk; cbn; [lia|]. inversion H1; subst. inversion H2; subst.
  assert (length p + S i <= m); [|lia]. apply IH; auto; [|lia]. apply Forall_forall. intros j Hj.
  rewrite Forall_forall in H4, H6. pose proof (H4 j Hj). pose proof (H6 j Hj). lia.
Qed.
Lemma path_ids_lt : forall s p t, P s p t -> Forall (fun i => i < n) p.
Proof. intros s p t H. induction H as [|i a p t Ha Hp IH]; constructor; auto. apply (nth_lt _ _ _ _ (proj1 Ha)). Qed.
Lemma path_len : forall s p t, P s p t -> length p <= n.
Proof.
  intros s p t H. assert (length p + 0 <= n); [|lia]. apply sorted_len; [apply (path_increasing _ _ T _ _ _ H)| |lia].
  eapply Forall_impl; [|apply (path_ids_lt _ _ _ H)]. cbn; intros; lia.
Qed.
Lemma weight_pos : forall h, 1 <= weight h.
Proof. intros h. unfold weight. assert ((S n) ^ (n - length h) <> 0) by (apply Nat.pow_nonzero; lia). lia. Qed.
Lemma measure_step : forall max len s s', nb_inv len s -> nb_kind max s s' -> measure (stack s') < measure (stack s).
Proof.
  intros max len s s' I K. destruct K as [f h st t Es Hp Hfin Hh E1 E2 E3|f h st t ids es d Es Hp Hn Eids Ee Ep E2 E3]; rewrite Es.
  - rewrite E1. change (measure ((f, h) :: st)) with (weight h + measure st). pose proof (weight_pos h). lia.
  - destruct (pushes_spec _ _ _ _ _ Ep) as [PP _]. apply measure_perm in PP. rewrite !measure_app in PP.
    assert (Al : forall i, In i ids -> exists a, alive (arcs g) (arcsPruned g) i a /\ a_pred a = t) by (intros i Hi; apply (succ_ids_In g t ids W Eids i); exact Hi).
    destruct (expand_spec (f - hv t)%Z h ids) as [es' [Ee' [M Q]]]; [intros i Hi; destruct (Al i Hi) as [a [Ha _]]; eauto|].
    rewrite Ee in Ee'. injection Ee' as <-.
    assert (Q1 : measure es < weight h).
    { unfold measure. rewrite <- (map_map snd weight), M, map_map.
      destruct ids as [|i0 ids0] eqn:Ei; [cbn; pose proof (weight_pos h); lia|]. rewrite <- Ei in *.
      assert (Hlen : S (length h) <= n).
      { destruct (Al i0) as [a [Ha Et]]; [rewrite Ei; left; auto|].
        assert (Q0 : P 0 (h ++ [i0]) (a_succ a)).
        { apply (path_app _ _ 0 h t [i0] (a_succ a) Hp). rewrite <- Et. constructor; [exact Ha|constructor]. }
        apply path_len in Q0. rewrite app_length in Q0. cbn in Q0. lia. }
      assert (Hids : length ids <= n).
      { rewrite <- (seq_length n 0). apply NoDup_incl_length; [apply (ids_nodup t ids Eids)|]. intros i Hi. destruct (Al i Hi) as [a [Ha _]].
        apply in_seq. destruct Ha as [Ha _]. apply nth_lt in Ha. lia. }
      assert (Sum : forall l, list_sum (map (fun i => weight (h ++ [i])) l) = length l * (S n) ^ (n - S (length h))).
      { induction l as [|i l IHl]; [reflexivity|]. cbn [map list_sum fold_right length]. unfold list_sum in IHl. rewrite IHl. unfold weight. rewrite app_length. cbn [length]. rewrite Nat.add_1_r. lia. }
      rewrite Sum. unfold weight. replace (n - length h) with (S (n - S (length h))) by lia. cbn [Nat.pow].
      assert (1 <= (S n) ^ (n - S (length h))) by (assert ((S n) ^ (n - S (length h)) <> 0) by (apply Nat.pow_nonzero; lia); lia). nia. }
    assert (M1 : measure ((f, h) :: st) = weight h + measure st) by (unfold measure; reflexivity). lia.
Qed.
Lemma loop_terminates : forall max len k s, nb_inv len s -> measure (stack s) < k ->
  exists s', nb_loop k g heur max len s = Some s' /\ nb_inv len s' /\ (len <= length (done s') \/ stack s' = []).
Proof.
  intros max len k; induction k as [|k IH]; intros s I M; [lia|]. cbn [nb_loop].
  destruct (iter_cases max len s I) as [[E D]|[L [s' [E K]]]]; rewrite E.
  - exists s. auto.
  - apply IH; [apply (inv_step max len s s' I L K)|]. pose proof (measure_step max len s s' I K). lia.
Qed.
Lemma loop_inv : forall max len k s s', nb_inv len s -> nb_loop k g heur max len s = Some s' ->
  nb_inv len s' /\ (len <= length (done s') \/ stack s' = []).
Proof.
  intros max len k; induction k as [|k IH]; intros s s' I H; [discriminate|]. cbn [nb_loop] in H.
  destruct (iter_cases max len s I) as [[E D]|[L [s1 [E K]]]]; rewrite E in H.
  - injection H as <-. auto.
  - apply (IH s1); [apply (inv_step max len s s1 I L K)|exact H].
Qed.
Definition init_state (max : option nat) : nbst :=
  {| stack := fst (nb_push max ((initScore g + hv INITIAL_STATE)%Z, []) []); done := [];
     dropped := snd (nb_push max ((initScore g + hv INITIAL_STATE)%Z, []) []) |}.
Lemma search_unfold : forall fuel max len, nbSearch fuel g heur max len = nb_loop fuel g heur max len (init_state max).
Proof.
  intros fuel max len. unfold nbSearch. rewrite (nth_error_nth' heur 0%Z); [|destruct heur_facts; pose proof states_pos; unfold INITIAL_STATE; lia].
  unfold init_state. destruct (nb_push max _ []) as [st d]. reflexivity.
Qed.
Lemma init_inv : forall max len, nb_inv len (init_state max).
Proof.
  intros max len. unfold init_state. destruct (nb_push max ((initScore g + hv INITIAL_STATE)%Z, []) []) as [st d] eqn:E. cbn [fst snd].
  destruct (push_spec _ _ _ _ _ E) as [PP [SS _]].
  assert (PH : Permutation (hyps {| stack := st; done := []; dropped := d |}) [[]]).
  { unfold hyps. cbn [stack done dropped app]. change [[]] with (map snd [((initScore g + hv INITIAL_STATE)%Z, @nil nat)]). apply Permutation_map. exact PP. }
  constructor; cbn [stack done dropped].
  - apply Forall_forall. intros e He. apply (Permutation_in _ PP) in He. destruct He as [<-|[]]. exists 0. split; [constructor|]. cbn. unfold INITIAL_STATE. lia.
  - constructor.
  - apply SS. constructor.
  - constructor.
  - apply (pf_perm [[]]); [apply Permutation_sym, PH|]. split; [repeat constructor; intros []|]. intros x y [<-|[]] [<-|[]] _. reflexivity.
  - cbn. lia.
  - intros p _ _. exists []. split; [eapply Permutation_in; [apply Permutation_sym, PH|left; auto]|exists p; reflexivity].
Qed.
(** optimality: final states without outgoing arcs *)
Hypothesis DF : forall i a, alive (arcs g) (arcsPruned g) i a -> ~ In (a_pred a) (finals g).
Lemma path_from_final : forall s p t, P s p t -> In s (finals g) -> p = [].
Proof. intros s p t H Hs. inversion H as [|i a p' t' Ha Hp]; subst; auto. destruct (DF i a Ha Hs). Qed.
Lemma heur_final : forall t, In t (finals g) -> hv t = 0%Z.
Proof.
  intros t Ht. assert (Ht' : t < length (states g)) by (pose proof F as F'; rewrite Forall_forall in F'; auto).
  destruct heur_facts as [_ H]. destruct (H t Ht') as [[p [u [Hp E]]] _]. pose proof (path_from_final t p u Hp Ht). subst p.
  inversion Hp; subst. rewrite E. unfold end_value. rewrite (proj2 (existsb_In u (finals g)) Ht). reflexivity.
Qed.
Lemma complete_first : forall p, complete (arcs g) (arcsPruned g) (finals g) p -> first_final (arcs g) (finals g) p.
Proof.
  intros p [_ [t [_ Hp]]] q i r a Ep Ha Hin. subst p. apply path_app_inv in Hp. destruct Hp as [u [_ Hp]].
  inversion Hp as [|i' a' p' t' Ha' Hp']; subst. assert (a' = a) by (destruct Ha' as [A _]; congruence). subst a'.
  apply (path_from_final (a_succ a) r t Hp' Hin).
Qed.
Definition bound (s : nbst) : Prop := forall x y, In x (done s) -> In y (stack s) -> (fst y <= fst x)%Z.
Lemma bound_step : forall max len s s', nb_inv len s -> nb_kind max s s' -> bound s -> bound s'.
Proof.
  intros max len s s' I K B. pose proof (i_sorted len s I) as So.
  destruct K as [f h st t Es Hp Hfin Hh E1 E2 E3|f h st t ids es d Es Hp Hn Eids Ee Ep E2 E3]; rewrite Es in So; apply StronglySorted_inv in So; destruct So as [So1 So2].
  - intros x y Hx Hy. rewrite E1 in Hy. rewrite E2 in Hx. apply (Permutation_in _ (insert_perm _ _)) in Hx. destruct Hx as [<-|Hx].
    + cbn. rewrite (heur_final t Hfin). rewrite Forall_forall in So2. specialize (So2 y Hy). unfold desc in So2. cbn in So2. lia.
    + apply B; auto. rewrite Es. right; exact Hy.
  - assert (Al : forall i, In i ids -> exists a, alive (arcs g) (arcsPruned g) i a /\ a_pred a = t) by (intros i Hi; apply (succ_ids_In g t ids W Eids i); exact Hi).
    destruct (expand_spec (f - hv t)%Z h ids) as [es' [Ee' [M Q]]]; [intros i Hi; destruct (Al i Hi) as [a [Ha _]]; eauto|].
    rewrite Ee in Ee'. injection Ee' as <-. destruct (pushes_spec _ _ _ _ _ Ep) as [PP _].
    intros x y Hx Hy. rewrite E2 in Hx. assert (Hy' : In y (es ++ st)) by (apply (Permutation_in _ PP), in_or_app; auto).
    apply in_app_or in Hy'. destruct Hy' as [Hy'|Hy'].
    + destruct (Q y Hy') as [i [a [Hi [Ha [_ Q2]]]]]. destruct (Al i Hi) as [a' [Ha' Et]].
      assert (a' = a) by (destruct Ha as [A1 _], Ha' as [A2 _]; congruence). subst a'.
      pose proof (heur_mono i a Ha) as HM. rewrite Et in HM. assert (f <= fst x)%Z; [|lia].
      apply (B x (f, h)); auto. rewrite Es. left; reflexivity.
    + apply B; auto. rewrite Es. right; exact Hy'.
Qed.
Lemma loop_bound : forall max len k s s', nb_inv len s -> bound s -> nb_loop k g heur max len s = Some s' -> bound s'.
Proof.
  intros max len k; induction k as [|k IH]; intros s s' I B H; [discriminate|]. cbn [nb_loop] in H.
  destruct (iter_cases max len s I) as [[E D]|[L [s1 [E K]]]]; rewrite E in H.
  - injection H as <-. auto.
  - apply (IH s1); [apply (inv_step max len s s1 I L K)|apply (bound_step max len s s1 I K B)|exact H].
Qed.
(** a complete path that is not listed extends a stacked or a dropped hypothesis *)
Lemma unlisted : forall len s p, nb_inv len s -> complete (arcs g) (arcsPruned g) (finals g) p -> ~ In p (map snd (done s)) ->
  exists e, In e (stack s ++ dropped s) /\ prefix (snd e) p /\ (initScore g + sc p <= fst e)%Z.
Proof.
  intros len s p I Hc Hnot. destruct (i_cover len s I p Hc (complete_first p Hc)) as [x [Hx [r Er]]].
  unfold hyps in Hx. apply in_map_iff in Hx. destruct Hx as [e [<- He]]. rewrite !in_app_iff in He.
  assert (Hd : ~ In e (done s)).
  { intros He'. pose proof (i_listed len s I) as Q. rewrite Forall_forall in Q. destruct (Q e He') as [[He1 [u [Hu Hpu]]] _].
    destruct Hc as [_ [t [Ht Hpt]]]. rewrite Er in Hpt. apply path_app_inv in Hpt. destruct Hpt as [u2 [Hpu2 Hr]].
    assert (u2 = u) by (apply (path_det _ _ _ _ _ _ Hpu2 Hpu)). subst u2. apply path_from_final in Hr; [|exact Hu]. subst r.
    rewrite app_nil_r in Er. subst p. apply Hnot. apply in_map_iff. eauto. }
  assert (He' : In e (stack s ++ dropped s)) by (rewrite in_app_iff; tauto).
  exists e. split; [exact He'|]. split; [exists r; exact Er|].
  pose proof (i_valid len s I) as V. rewrite Forall_forall in V. destruct (V e He') as [t [Hp Hf]].
  destruct Hc as [_ [u [Hu Hpu]]]. rewrite Er in Hpu. apply path_app_inv in Hpu. destruct Hpu as [t2 [Hp2 Hr]].
  assert (t2 = t) by (apply (path_det _ _ _ _ _ _ Hp2 Hp)). subst t2.
  assert (Ht : t < length (states g)) by (apply (path_end_lt g 0 (snd e) t W states_pos Hp)).
  pose proof (heur_path t r u Ht Hr) as HP. rewrite (heur_final u Hu) in HP. rewrite Hf, Er, pscore_app. lia.
Qed.
End Search.
