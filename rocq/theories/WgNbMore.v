(** Packaging: n-best list as a whole, stack limit, histories. *)
From Coq Require Import ZArith List Bool Lia Arith Sorted Permutation.
From Verif Require Import WgSpec WgModel WgBase WgHeurProofs WgNbProofs.
Import ListNotations.
Open Scope nat_scope.

(** at most m different paths leave the initial state *)
Definition paths_at_most (ar : list arc) (pr : list bool) (m : nat) : Prop :=
  forall L : list (list nat), NoDup L -> (forall p, In p L -> exists t, path ar pr 0 p t) -> length L <= m.
Section NoDrop.
Variable g : wg.
Hypothesis W : wf g.
Hypothesis T : topological (arcs g) (arcsPruned g).
Hypothesis F : Forall (fun s => s < length (states g)) (finals g).
Hypothesis NE : arcs g <> [].
Variable heur : list Z.
Hypothesis Hheur : obtainNbSearchHeurInfo g = Some heur.
Variable m : nat.
Hypothesis Few : paths_at_most (arcs g) (arcsPruned g) m.
Lemma nodrop_step : forall len s s', nb_inv g heur len s -> length (done s) < len -> nb_kind g heur (Some m) s s' -> dropped s = [] -> dropped s' = [].
Proof.
  intros len s s' I L K D. assert (I' : nb_inv g heur len s') by (apply (inv_step g W T F heur Hheur (Some m) len s s' I L K)).
  destruct K as [f h st t Es Hp Hfin Hh E1 E2 E3|f h st t ids es d Es Hp Hn Eids Ee Ep E2 E3]; [congruence|].
  rewrite E3, D. cbn [app]. destruct (pushes_spec _ _ _ _ _ Ep) as [PP [_ Q]]. apply Q.
  assert (X : length (map snd (es ++ st)) <= m); [|rewrite map_length, app_length in X; lia]. apply Few.
  - eapply Permutation_NoDup; [apply Permutation_map; exact PP|].
    assert (ND : NoDup (hyps s')) by (apply (i_pf g heur len s' I')). unfold hyps in ND. rewrite E3, D in ND. cbn [app] in ND.
    assert (PM : Permutation (map snd (stack s' ++ done s' ++ d)) (map snd (done s') ++ map snd (stack s' ++ d))).
    { rewrite <- map_app. apply Permutation_map. rewrite !app_assoc. apply Permutation_app_tail, Permutation_app_comm. }
    apply (Permutation_NoDup PM) in ND. clear -ND. induction (map snd (done s')) as [|x l IH]; [exact ND|]. inversion ND; subst. auto.
  - intros p Hin. apply in_map_iff in Hin. destruct Hin as [e [<- He]]. apply Permutation_sym in PP. apply (Permutation_in _ PP) in He.
    pose proof (i_valid g heur len s' I') as V. rewrite Forall_forall in V. destruct (V e) as [u [Hu _]]; [rewrite E3, D; exact He|]. eauto.
Qed.
Lemma nodrop_loop : forall len k s s', nb_inv g heur len s -> dropped s = [] -> nb_loop k g heur (Some m) len s = Some s' -> dropped s' = [].
Proof.
  intros len k; induction k as [|k IH]; intros s s' I D H; [discriminate|]. cbn [nb_loop] in H.
  destruct (iter_cases g W T F NE heur Hheur (Some m) len s I) as [[E _]|[L [s1 [E K]]]]; rewrite E in H.
  - injection H as <-. exact D.
  - apply (IH s1); [apply (inv_step g W T F heur Hheur (Some m) len s s1 I L K)|apply (nodrop_step len s s1 I L K D)|exact H].
Qed.
Lemma few_pos : 1 <= m.
Proof. change 1 with (length [@nil nat]). apply Few; [repeat constructor; intros []|]. intros p [<-|[]]. exists 0. constructor. Qed.
Lemma nodrop_init : dropped (init_state g heur (Some m)) = [].
Proof. unfold init_state. cbn. pose proof few_pos. destruct m; [lia|]. cbn. destruct n; reflexivity. Qed.
End NoDrop.
(** histories *)
Lemma run_arcs : forall ops g g', wf g -> wg_run ops g = Some g' -> arcs g' = arcs g ++ arcs_of ops.
Proof.
  induction ops as [|o ops IH]; intros g g' W H; cbn [wg_run] in H; [injection H as <-; rewrite app_nil_r; reflexivity|].
  destruct (wg_op o g) as [g1|] eqn:E; [|discriminate]. pose proof (wf_op o g g1 W E) as W1. rewrite (IH g1 g' W1 H).
  destruct o; cbn [wg_op] in E; cbn [arcs_of flat_map].
  - destruct (wf_addArc _ _ _ _ _ _ _ W E) as [_ [-> _]]. rewrite <- app_assoc. reflexivity.
  - injection E as <-. reflexivity.
  - injection E as <-. reflexivity.
  - destruct (pruneArcs g lt) as [[g2 c]|] eqn:Ep; [|discriminate]. injection E as <-. apply pruneArcs_inv in Ep; [|exact W]. destruct Ep as [_ [-> _]]. reflexivity.
  - injection E as <-. reflexivity.
Qed.
Lemma run_app : forall a b g, wg_run (a ++ b) g = match wg_run a g with Some g' => wg_run b g' | None => None end.
Proof. induction a as [|o a IH]; intros b g; cbn [app wg_run]; [reflexivity|]. destruct (wg_op o g); [apply IH|reflexivity]. Qed.
Definition max_succ (l : list arc) : nat := fold_right (fun a n => Nat.max (S (a_succ a)) n) 0 l.
Lemma max_succ_app : forall a b, max_succ (a ++ b) = Nat.max (max_succ a) (max_succ b).
Proof. induction a as [|x a IH]; intros b; [reflexivity|]. cbn [app max_succ fold_right]. unfold max_succ in IH. rewrite IH, Nat.max_assoc. reflexivity. Qed.
Lemma run_states : forall ops g', wg_run ops wg_new = Some g' -> length (states g') = states_of ops.
Proof.
  intros ops; induction ops as [|o ops IH] using rev_ind; intros g' H; [injection H as <-; reflexivity|].
  rewrite run_app in H. destruct (wg_run ops wg_new) as [g1|] eqn:E; [|discriminate]. specialize (IH g1 eq_refl).
  pose proof (wf_run _ _ _ wf_new E) as W1. cbn [wg_run] in H. destruct (wg_op o g1) as [g2|] eqn:E2; [|discriminate]. injection H as <-.
  unfold states_of, arcs_of in *. rewrite flat_map_app. cbn [flat_map]. rewrite app_nil_r.
  change (length (states g2) = max_succ (arcs_of ops ++ match o with OArc p s w z _ => [{| a_pred := p; a_succ := s; a_score := z; a_words := w |}] | _ => [] end)).
  change (length (states g1) = max_succ (arcs_of ops)) in IH. rewrite max_succ_app, <- IH.
  destruct o; cbn [wg_op] in E2; cbn [max_succ fold_right a_succ].
  - destruct (wf_addArc _ _ _ _ _ _ _ W1 E2) as [_ [_ [_ [_ [_ [_ [-> _]]]]]]]. lia.
  - injection E2 as <-. cbn. lia.
  - injection E2 as <-. cbn. lia.
  - destruct (pruneArcs g1 lt) as [[g3 c]|] eqn:Ep; [|discriminate]. injection E2 as <-. apply pruneArcs_inv in Ep; [|exact W1]. destruct Ep as [_ [_ [-> _]]]. lia.
  - injection E2 as <-. cbn. lia.
Qed.
Definition no_prune (o : wgop) : Prop := match o with OPrune _ => False | _ => True end.
Lemma run_defined : forall ops, Forall no_prune ops -> ((exists g, wg_run ops wg_new = Some g) <-> preds_known ops).
Proof.
  intros ops; induction ops as [|o ops IH] using rev_ind; intros NP.
  - split; [|intros _; exists wg_new; reflexivity]. intros _ h p s w z c r E. destruct h; discriminate.
  - apply Forall_app in NP. destruct NP as [NP1 NP2]. specialize (IH NP1). rewrite run_app.
    assert (Pre : preds_known (ops ++ [o]) -> preds_known ops).
    { intros H h p s w z c r E. apply (H h p s w z c (r ++ [o])). rewrite E, <- app_assoc. reflexivity. }
    split.
    + intros [g H]. destruct (wg_run ops wg_new) as [g1|] eqn:E; [|discriminate]. cbn [wg_run] in H.
      destruct (wg_op o g1) as [g2|] eqn:E2; [|discriminate]. pose proof (proj1 IH ltac:(eauto)) as K.
      intros h p s w z c r Eq. destruct r as [|x r _] using rev_ind.
      * apply app_inj_tail in Eq. destruct Eq as [-> ->]. cbn [wg_op] in E2.
        destruct (wf_addArc _ _ _ _ _ _ _ (wf_run _ _ _ wf_new E) E2) as [_ [_ [_ [_ [_ [_ [L Q]]]]]]]. rewrite L, (run_states _ _ E) in Q. lia.
      * rewrite app_comm_cons, app_assoc in Eq. apply app_inj_tail in Eq. destruct Eq as [Eq _]. apply (K h p s w z c r Eq).
    + intros H. destruct (proj2 IH (Pre H)) as [g1 E]. rewrite E. cbn [wg_run].
      assert (Q : exists g2, wg_op o g1 = Some g2); [|destruct Q as [g2 ->]; eauto].
      destruct o; cbn [wg_op]; eauto.
      * assert (Hp : pred < Nat.max (length (states g1)) (S succ)).
        { rewrite (run_states _ _ E). pose proof (H ops pred succ words score scr [] eq_refl). lia. }
        unfold addArc. set (st0 := states g1 ++ _). assert (L0 : length st0 = Nat.max (length (states g1)) (S succ)) by (unfold st0; rewrite app_length, repeat_length; lia).
        destruct (upd_ok _ pred (add_succ (length (arcs g1))) st0) as [st1 E1]; [lia|]. rewrite E1. apply upd_some in E1. destruct E1 as [_ [L1 _]].
        destruct (upd_ok _ succ (add_pred (length (arcs g1))) st1) as [st2 E2]; [lia|]. rewrite E2. eauto.
      * inversion NP2; subst. contradiction.
Qed.
