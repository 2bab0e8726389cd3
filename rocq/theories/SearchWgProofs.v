(** Proofs about the word graph built during the search. *)
From Coq Require Import ZArith Arith List Bool Lia Sorted Permutation.
From Verif Require Import AMap StackSpec StackModel StackProofs SearchStackProofs SearchSpec SearchModel SearchProofs SearchSessionProofs WgSpec WgModel WgBase WgNbMore SearchWgSpec SearchWgModel.
Import ListNotations.
Open Scope nat_scope.

(** ** dictionary *)
Lemma idx_dict : forall k h idx M b M', pushOnSmtStackIdx k h idx M = Some (b, M') -> sdict M' = sdict M.
Proof.
  intros k h idx M b M' E. unfold pushOnSmtStackIdx in E.
  set (R := match aget Nat.eq_dec idx (recinfo M) with Some (k', id') => if cls_dec k' k then option_map (put_stk M k) (st_erase id' (stk M k)) else Some M | None => Some M end) in E.
  assert (RS : forall M1, R = Some M1 -> sdict M1 = sdict M).
  { intros M1 Q. unfold R in Q. destruct (aget _ _ _) as [[k' id']|]; [|congruence]. destruct (cls_dec k' k); [|congruence].
    destruct (st_erase _ _); cbn in Q; inversion Q; reflexivity. }
  destruct R as [M1|]; [|discriminate]. specialize (RS M1 eq_refl). rewrite <- RS. clear RS. destruct (st_pushIter _ _ _) as [ok l'].
  destruct ok; [|inversion E; reflexivity]. destruct (_ =? _); [|inversion E; reflexivity]. destruct (st_last _) as [lh|]; [|discriminate].
  destruct (eraseRecInfo _ _) as [M2|] eqn:Q; [|discriminate]. inversion E; subst. unfold eraseRecInfo in Q. destruct (aget _ _ _) as [[i sc]|]; inversion Q; reflexivity.
Qed.
Lemma mspush_dict : forall h M b M', ms_push h M = Some (b, M') -> sdict M' = sdict M \/ sdict M' = createDictEntry (hstate h) (hscore h) (sdict M).
Proof.
  intros h M b M' E. unfold ms_push in E.
  set (M1 := match substack M (hclass h) with Some _ => M | None => set_sorted (put_stk M (hclass h) []) (kinsert (hclass h) (sorted M)) end) in E.
  assert (S1 : sdict M1 = sdict M) by (unfold M1; destruct (substack _ _); reflexivity).
  destruct (pushOnSmtStack (hclass h) h M1) as [[b1 M2]|] eqn:Q; [|discriminate].
  assert (S2 : sdict M' = sdict M2). { destruct b1; [destruct (_ =? 0)|destruct (_ =? 0)]; inversion E; reflexivity. }
  rewrite S2. clear E S2. unfold pushOnSmtStack in Q. rewrite S1 in Q. unfold createDictEntry in *. destruct (aget Nat.eq_dec (hstate h) (sdict M)) as [[i sc]|].
  - destruct (_ <? _)%Z; [inversion Q; subst; left; congruence|]. apply idx_dict in Q. right. exact Q.
  - destruct (aget _ _ _) as [[j x]|]; [|discriminate]. apply idx_dict in Q. right. exact Q.
Qed.

Section SearchWg.
Variables (H : Type) (enc : H -> nat) (dec : nat -> H).
Variables (st : H -> nat) (cl : H -> nat * nat) (heur : H -> Z) (dist : H -> nat) (complete : H -> bool) (succs : H -> list (H * Z)).
Variable words : H -> list nat.
Variable null : H * Z.
Variables (bf prune : bool) (I MAXIT : nat) (GEPS LOWEST WORST : Z).
Hypothesis dec_enc : forall h, dec (enc h) = h.
Variables (start : H) (s0 : Z).
Notation ok := (from_start H succs start).
Variable size : H -> nat.
Hypothesis fin : finite_space H succs start size.
Variable J : nat.
Hypothesis dist_ok : forall h, ok h -> dist h <= J /\ (complete h = true <-> dist h = J).
Hypothesis cl_ok : bf = true -> forall h, ok h -> fst (cl h) = dist h.
Hypothesis app_ok : appending H succs words start dist.
Hypothesis lab_ok : labelled_states H succs words start st heur dist.
Notation ext := (extends H succs).
Notation Inv := (Inv H enc st cl heur dist complete succs bf GEPS WORST start s0).
Notation item := (item H enc st cl heur dist bf GEPS).
Notation reach := (reach H succs start s0).
Notation push := (push H enc st cl heur dist complete bf prune GEPS LOWEST).
Notation addArcTo := (addArcToWordGraph H st heur complete words).
Notation pushG := (pushGivenPredHyp H enc st cl heur dist complete words bf prune GEPS LOWEST).
Notation push_all := (push_all H enc st cl heur dist complete bf prune GEPS LOWEST).
Notation g_push_all := (g_push_all H enc st cl heur dist complete words bf prune GEPS LOWEST).
Notation expand := (SearchModel.expand H succs).
Notation process := (process H enc st cl heur dist complete succs bf prune GEPS LOWEST).
Notation g_process := (g_process H enc st cl heur dist complete succs words bf prune GEPS LOWEST).
Notation decode_loop := (decode_loop H enc dec st cl heur dist complete succs bf prune I GEPS LOWEST).
Notation g_loop := (g_loop H enc dec st cl heur dist complete succs words bf prune I GEPS LOWEST).
Notation select := (select H dec heur dist complete bf GEPS).
Notation good := (good H succs null start s0).

Definition ix (D : decoder) (t : nat) : option nat := option_map fst (aget Nat.eq_dec t (sdict (cont D))).
Lemma stateIndex_ix : forall D h, stateIndex H st D h = ix D (st h).
Proof. reflexivity. Qed.
Lemma ix_inj : forall D t t' i, dict_ok (sdict (cont D)) -> ix D t = Some i -> ix D t' = Some i -> t = t'.
Proof.
  intros D t t' i (_ & _ & INJ) A B. unfold ix in *. destruct (aget _ t _) as [[a x]|] eqn:E1; inversion A; subst. destruct (aget _ t' _) as [[b y]|] eqn:E2; inversion B; subst.
  cbn in *. subst. eapply INJ; eauto.
Qed.
(** what a push does to the indices *)
Definition ixstep (D D' : decoder) (t : nat) : Prop :=
  (forall u i, ix D u = Some i -> ix D' u = Some i) /\ (forall u i, ix D' u = Some i -> ix D u = Some i \/ (u = t /\ ix D t = None /\ i = length (sdict (cont D)))).
Lemma ixstep_same : forall D D' t, sdict (cont D') = sdict (cont D) -> ixstep D D' t.
Proof. intros D D' t E. unfold ixstep, ix. rewrite E. split; auto. Qed.
Lemma push_ix : forall h s D D', push (h, s) D = Some D' -> dict_ok (sdict (cont D)) -> ixstep D D' (st h) /\ dict_ok (sdict (cont D')).
Proof.
  intros h s D D' E OK. rewrite (push_eq H enc st cl heur dist complete succs bf prune GEPS LOWEST start cl_ok) in E. destruct (LOWEST <=? s)%Z; [|inversion E; subst; split; auto; now apply ixstep_same].
  destruct (_ || _); [|inversion E; subst; split; auto; now apply ixstep_same].
  destruct (ms_push _ _) as [[b M]|] eqn:Q; [|discriminate]. inversion E; subst. cbn [cont]. apply mspush_dict in Q. destruct Q as [Q|Q]; [rewrite Q; split; auto; now apply ixstep_same|].
  change (hstate (item h s)) with (st h) in Q. split; [|rewrite Q; now apply dict_create_ok]. unfold ixstep, ix. cbn [cont]. rewrite Q. split; intros u i; rewrite dict_create_get; destruct (Nat.eq_dec u (st h)) as [->|N]; auto.
  - destruct (aget _ _ _) as [[j x]|]; [auto|discriminate].
  - destruct (aget _ _ _) as [[j x]|]; cbn; [auto|]. intro Z. inversion Z. auto.
Qed.

(** ** graphs *)
Definition growth (g g' : wg) : Prop := exists l, arcs g' = arcs g ++ l.
Definition sane (g : wg) : Prop := wf g /\ Forall (fun b => b = false) (arcsPruned g) /\ exists ops, Forall no_prune ops /\ wg_run ops wg_new = Some g.
Lemma alive_iff : forall g i a, sane g -> (alive (arcs g) (arcsPruned g) i a <-> nth_error (arcs g) i = Some a).
Proof.
  intros g i a (W & F & _). split; [intros []; auto|]. intro E. split; auto. assert (L : i < length (arcsPruned g)) by (rewrite (wf_pr g W); apply nth_error_Some; congruence).
  destruct (nth_error (arcsPruned g) i) as [b|] eqn:Q; [|apply nth_error_None in Q; lia]. rewrite Forall_forall in F. rewrite (F b); auto. eapply nth_error_In; eauto.
Qed.
Notation gpath g := (path (arcs g) (arcsPruned g)).
Lemma growth_nth : forall g g' i a, growth g g' -> nth_error (arcs g) i = Some a -> nth_error (arcs g') i = Some a.
Proof. intros g g' i a (l & E) Q. rewrite E, nth_error_app1; auto. apply nth_error_Some. congruence. Qed.
Lemma growth_path : forall g g' s p t, sane g -> sane g' -> growth g g' -> gpath g s p t -> gpath g' s p t.
Proof.
  intros g g' s p t S S' G P. induction P as [|i a p t A P IH]; [constructor|]. constructor; auto. apply (alive_iff g' i a S'). eapply growth_nth; eauto. apply A.
Qed.
Lemma growth_score : forall g g' s p t, growth g g' -> gpath g s p t -> pscore (arcs g') p = pscore (arcs g) p.
Proof.
  intros g g' s p t G P. induction P as [|i a p t [A _] P IH]; [reflexivity|]. cbn [pscore]. rewrite IH, A, (growth_nth _ _ _ _ G A). reflexivity.
Qed.
Lemma growth_words : forall g g' s p t, growth g g' -> gpath g s p t -> path_words (arcs g') p = path_words (arcs g) p.
Proof.
  intros g g' s p t G P. induction P as [|i a p t [A _] P IH]; [reflexivity|]. unfold path_words in *. cbn [flat_map]. rewrite IH, A, (growth_nth _ _ _ _ G A). reflexivity.
Qed.
Lemma no_arcs_path : forall g s p t, arcs g = [] -> gpath g s p t -> s = t.
Proof. intros g s p t E P. destruct P as [|i a p t [A _] P]; auto. rewrite E in A. destruct i; discriminate. Qed.
Lemma growth_trans : forall a b c, growth a b -> growth b c -> growth a c.
Proof. intros a b c (l & A) (m & B). exists (l ++ m). now rewrite B, A, app_assoc. Qed.
Lemma growth_refl : forall a, growth a a.
Proof. intro a. exists []. now rewrite app_nil_r. Qed.
Lemma sane_step : forall g o g', sane g -> no_prune o -> wg_op o g = Some g' -> (arcsPruned g' = arcsPruned g \/ arcsPruned g' = arcsPruned g ++ [false]) -> sane g'.
Proof.
  intros g o g' (W & F & ops & N & R) NP E P. assert (R' : wg_run (ops ++ [o]) wg_new = Some g') by (rewrite run_app, R; cbn; now rewrite E).
  split; [exact (wf_run _ _ _ wf_new R')|]. split; [destruct P as [-> | ->]; auto; apply Forall_app; auto|]. exists (ops ++ [o]). split; [apply Forall_app; auto|auto].
Qed.
Lemma sane_new : sane wg_new.
Proof. split; [exact wf_new|]. split; [constructor|]. exists []. split; [constructor|reflexivity]. Qed.
Lemma sane_final : forall g j, sane g -> sane (addFinalState g j).
Proof. intros g j S. apply (sane_step g (OFinal j)); [exact S|exact Logic.I|reflexivity|now left]. Qed.
Lemma sane_init : forall g z, sane g -> sane (setInitialStateScore g z).
Proof. intros g j S. apply (sane_step g (OInit j)); [exact S|exact Logic.I|reflexivity|now left]. Qed.
Lemma addArc_ok : forall g i j ws z, sane g -> (i = 0 \/ i < length (states g)) -> exists g', addArc g i j ws z [] = Some g' /\ sane g' /\
  arcs g' = arcs g ++ [{| a_pred := i; a_succ := j; a_score := z; a_words := ws |}] /\ finals g' = finals g /\ initScore g' = initScore g /\
  length (states g) <= length (states g') /\ j < length (states g').
Proof.
  intros g i j ws z S L. pose proof S as (W & _).
  assert (X : exists g', addArc g i j ws z [] = Some g').
  { unfold addArc. destruct (upd_ok _ i (add_succ (length (arcs g))) (states g ++ repeat st_empty (Datatypes.S j - length (states g)))) as (v & E).
    { rewrite app_length, repeat_length. lia. }
    rewrite E. pose proof (upd_some _ _ _ _ _ E) as (_ & LV & _). destruct (upd_ok _ j (add_pred (length (arcs g))) v) as (v' & E').
    { rewrite LV, app_length, repeat_length. lia. }
    rewrite E'. eauto. }
  destruct X as (g' & E). exists g'. split; auto.
  assert (Y : arcs g' = arcs g ++ [{| a_pred := i; a_succ := j; a_score := z; a_words := ws |}] /\ finals g' = finals g /\ initScore g' = initScore g /\
    length (states g) <= length (states g') /\ j < length (states g') /\ arcsPruned g' = arcsPruned g ++ [false]).
  { unfold addArc in E. destruct (upd i _ _) as [v|] eqn:E1; [|discriminate]. destruct (upd j _ _) as [v'|] eqn:E2; [|discriminate]. inversion E; subst. cbn.
    apply upd_some in E1. apply upd_some in E2. destruct E1 as (_ & L1 & _). destruct E2 as (_ & L2 & _). rewrite app_length, repeat_length in L1. repeat split; auto; lia. }
  destruct Y as (Y1 & Y2 & Y3 & Y4 & Y5 & Y6). split; [apply (sane_step g (OArc i j ws z [])); auto; exact Logic.I|auto 10].
Qed.
Lemma set_insert_in : forall x y l, In x (set_insert y l) <-> x = y \/ In x l.
Proof.
  intros x y l. induction l as [|z l IH]; [cbn; intuition|]. cbn [set_insert]. destruct (Nat.ltb_spec y z) as [L|L]; [cbn; intuition|].
  destruct (Nat.eqb_spec y z) as [->|N]; [cbn; intuition|]. cbn [In]. rewrite IH. tauto.
Qed.

(** ** the invariant *)

Definition linkedX (D : decoder) (g : wg) (h : H) (s : Z) : Prop := reach h s /\ exists p i, ix D (st h) = Some i /\ gpath g 0 p i /\
  pscore (arcs g) p = (s + heur h - (s0 + heur start))%Z /\ words h = words start ++ path_words (arcs g) p.
Notation linked X h s := (linkedX (sd X) (gr X) h s).
Record GInv (xs : list nat) (X : gdec) : Prop := {
  gi_inv : Inv (sd X);
  gi_dict : dict_ok (sdict (cont (sd X)));
  gi_start : forall t i, ix (sd X) t = Some i -> ix (sd X) (st start) = Some 0;
  gi_tbl : exists tbl, forall h i, ok h -> ix (sd X) (st h) = Some i -> tbl i = dist h;
  gi_sane : sane (gr X);
  gi_states : forall t i, ix (sd X) t = Some i -> i = 0 \/ i < length (states (gr X));
  gi_arcs : forall a, In a (arcs (gr X)) -> exists h c e, ok h /\ In (c, e) (succs h) /\ ix (sd X) (st h) = Some (a_pred a) /\ ix (sd X) (st c) = Some (a_succ a) /\
      a_score a = (e + heur c - heur h)%Z /\ words c = words h ++ a_words a;
  gi_init : arcs (gr X) <> [] -> initScore (gr X) = (s0 + heur start)%Z;
  gi_stored : forall h s, In (item h s) (stored (cont (sd X))) -> linked X h s;
  gi_finals : forall j, In j (finals (gr X)) <-> In j xs \/ exists a c, In a (arcs (gr X)) /\ a_succ a = j /\ ok c /\ complete c = true /\ ix (sd X) (st c) = Some j
}.
Lemma step_ok : forall h c e, ok h -> In (c, e) (succs h) -> ok c.
Proof. intros h c e (x & E) Q. exists (x + e)%Z. econstructor; eauto. Qed.
Lemma ext_dist : forall a c e, ok a -> ext a c e -> (a = c /\ e = 0%Z) \/ dist a < dist c.
Proof.
  intros a c e O E. induction E as [|b e c x E IH Q]; auto. right. assert (Ob : ok b). { destruct O as (y & Y). destruct (SearchProofs.reach_ext H succs start s0 a (s0 + y)%Z b e (ex_intro _ y (conj Y eq_refl)) E) as (z & Z & _). now exists z. }
  destruct (app_ok b c x Ob Q) as [_ L]. destruct IH as [[-> _]|IH]; lia.
Qed.
Lemma start_state : forall h s, reach h s -> st h = st start -> h = start /\ s = s0.
Proof.
  intros h s (e & E & ->) S. assert (Os : ok start) by (exists 0%Z; constructor). assert (Oh : ok h) by (now exists e).
  destruct (lab_ok h start Oh Os S) as (_ & DE & _). destruct (ext_dist _ _ _ Os E) as [[<- ->]|L]; [|lia]. split; auto; lia.
Qed.
Lemma complete_state : forall a b, ok a -> ok b -> st a = st b -> complete a = complete b.
Proof.
  intros a b Oa Ob S. destruct (lab_ok a b Oa Ob S) as (_ & DE & _). destruct (dist_ok a Oa) as [_ A]. destruct (dist_ok b Ob) as [_ B]. rewrite DE in A.
  destruct (complete a), (complete b); auto; [symmetry|]; [apply B, A; auto|apply A, B; auto].
Qed.
Definition gstep (X X' : gdec) : Prop := (forall u i, ix (sd X) u = Some i -> ix (sd X') u = Some i) /\ growth (gr X) (gr X') /\ sane (gr X) /\ sane (gr X').
Lemma gstep_trans : forall A B C, gstep A B -> gstep B C -> gstep A C.
Proof. intros A B C (a & b & c & d) (a' & b' & c' & d'). split; [auto|]. split; [eapply growth_trans; eauto|auto]. Qed.
Lemma linked_mono : forall X X' h s, gstep X X' -> linked X h s -> linked X' h s.
Proof.
  intros X X' h s (M & GR & S & S') (R & p & i & E & P & Q & L). split; auto. exists p, i. split; [auto|]. split; [exact (growth_path _ _ _ _ _ S S' GR P)|].
  rewrite (growth_score _ _ _ _ _ GR P), (growth_words _ _ _ _ _ GR P). auto.
Qed.
(** a push without a new arc: a hypothesis already linked *)
Lemma plain_push : forall xs X h s D', GInv xs X -> linked X h s -> push (h, s) (sd X) = Some D' -> GInv xs {| sd := D'; gr := gr X |} /\ gstep X {| sd := D'; gr := gr X |}.
Proof.
  intros xs X h s D' GI L E. pose proof (gi_sane _ _ GI) as SA. destruct (push_ix _ _ _ _ E (gi_dict _ _ GI)) as [[M N] DK].
  destruct (push_ok H enc dec st cl heur dist complete succs null bf prune GEPS LOWEST WORST dec_enc start s0 size cl_ok (h, s) (sd X) (gi_inv _ _ GI) (proj1 L)) as (D2 & E2 & IV & _ & _ & _ & SB).
  assert (D2 = D') by congruence. subst D2. cbn [fst snd] in SB.
  assert (OLD : forall u i, ix D' u = Some i -> ix (sd X) u = Some i). { intros u i Q. destruct (N u i Q) as [|(-> & Z & _)]; auto. destruct L as (_ & p & k & Z' & _). congruence. }
  assert (GS : gstep X {| sd := D'; gr := gr X |}) by (split; [exact M|split; [apply growth_refl|split; exact SA]]).
  split; [|exact GS]. destruct GI as [g1 g2 g3 g4 g5 g6 g7 g8 g9 g10]. constructor; cbn [sd gr] in *; auto.
  - intros t i Q. apply OLD in Q. apply g3 in Q. auto.
  - destruct g4 as (tbl & T). exists tbl. intros h' i O Q. apply T; auto.
  - intros t i Q. apply OLD in Q. eauto.
  - intros a Q. destruct (g7 a Q) as (h' & c & e & A1 & A2 & A3 & A4 & A5). exists h', c, e. split; [auto|]. split; [auto|]. split; [auto|]. split; [auto|]. auto.
  - intros h' s' Q. assert (Lh : linked {| sd := D'; gr := gr X |} h' s'); [|exact Lh]. apply (linked_mono X); auto. destruct (SB _ Q) as [Q'|Q']; [|auto].
    apply item_inj with (dec := dec) in Q'; auto. destruct Q' as [-> ->]. auto.
  - intro j. rewrite g10. split; intros [Q|(a & c & A1 & A2 & A3 & A4 & A5)]; auto; right; exists a, c; auto 10.
Qed.
(** pushing an expansion and adding its arc *)
Lemma pushG_ok : forall xs X h s c e, GInv xs X -> linked X h s -> In (c, e) (succs h) -> exists X', pushG (h, s) (c, (s + e)%Z) X = Some X' /\ push (c, (s + e)%Z) (sd X) = Some (sd X') /\
  GInv xs X' /\ gstep X X'.
Proof.
  intros xs X h s c e GI L Q. pose proof (gi_sane _ _ GI) as SA. destruct L as (R & p & i & Ei & P & PS & PW).
  assert (RC : reach c (s + e)%Z) by (eapply SearchProofs.reach_step; eauto). assert (Oh : ok h) by (eapply SearchProofs.reach_ok; eauto). assert (Oc : ok c) by (eapply SearchProofs.reach_ok; eauto).
  destruct (push_ok H enc dec st cl heur dist complete succs null bf prune GEPS LOWEST WORST dec_enc start s0 size cl_ok (c, (s + e)%Z) (sd X) (gi_inv _ _ GI) RC) as (D' & E & IV & _ & _ & _ & SB).
  cbn [fst snd] in SB. destruct (push_ix _ _ _ _ E (gi_dict _ _ GI)) as [[M N] DK]. unfold pushGivenPredHyp. rewrite E. unfold addArcToWordGraph. rewrite !stateIndex_ix. cbn [fst snd].
  rewrite (M _ _ Ei).
  assert (TBL : exists tbl, forall h' i', ok h' -> ix D' (st h') = Some i' -> tbl i' = dist h').
  { destruct (gi_tbl _ _ GI) as (tbl & T). destruct (ix D' (st c)) as [j|] eqn:Ej.
    - exists (fun k => if k =? j then dist c else tbl k). intros h' i' O Z. destruct (Nat.eqb_spec i' j) as [->|NE].
      + apply (lab_ok c h' Oc O). eapply ix_inj; eauto.
      + destruct (N _ _ Z) as [Z'|(Z1 & _ & _)]; [auto|]. rewrite Z1 in Z. congruence.
    - exists tbl. intros h' i' O Z. destruct (N _ _ Z) as [Z'|(Z1 & _ & _)]; [auto|]. rewrite Z1 in Z. congruence. }
  assert (ST0 : forall t i', ix D' t = Some i' -> ix D' (st start) = Some 0) by (intros; apply M; eapply (gi_start _ _ GI); eauto).
  destruct (ix D' (st c)) as [j|] eqn:Ej.
  - (* the arc is added *)
    set (g1 := if i =? INITIAL_STATE then setInitialStateScore (gr X) (s + heur h) else gr X).
    assert (S1 : sane g1) by (unfold g1; destruct (_ =? _); [now apply sane_init|auto]).
    set (g2 := if complete c then addFinalState g1 j else g1). assert (S2 : sane g2) by (unfold g2; destruct (complete c); [now apply sane_final|auto]).
    assert (A2 : arcs g2 = arcs (gr X)) by (unfold g2, g1; destruct (complete c), (_ =? _); reflexivity).
    assert (T2 : states g2 = states (gr X)) by (unfold g2, g1; destruct (complete c), (_ =? _); reflexivity).
    assert (I2 : initScore g2 = if i =? 0 then (s + heur h)%Z else initScore (gr X)) by (unfold g2, g1; destruct (complete c), (i =? 0) eqn:Z; cbn; unfold INITIAL_STATE; rewrite Z; reflexivity).
    assert (F2 : forall k, In k (finals g2) <-> (complete c = true /\ k = j) \/ In k (finals (gr X))).
    { intro k. unfold g2, g1. destruct (complete c), (_ =? _); cbn; rewrite ?set_insert_in; intuition discriminate. }
    destruct (addArc_ok g2 i j (skipn (length (words h)) (words c)) (s + e + heur c - (s + heur h))%Z S2) as (g' & E' & S' & A' & F' & I' & LS & LJ).
    { rewrite T2. eapply gi_states; eauto. }
    rewrite E'. eexists. split; [reflexivity|]. cbn [sd gr]. split; [auto|].
    assert (GR : growth (gr X) g') by (exists [{| a_pred := i; a_succ := j; a_score := (s + e + heur c - (s + heur h))%Z; a_words := skipn (length (words h)) (words c) |}]; now rewrite A', A2).
    assert (GS : gstep X {| sd := D'; gr := g' |}) by (split; [exact M|split; [exact GR|split; [exact SA|exact S']]]).
    destruct (app_ok h c e Oh Q) as [(x & WX) DL].
    assert (SK : skipn (length (words h)) (words c) = x) by (rewrite WX, skipn_app, skipn_all, Nat.sub_diag; reflexivity).
    assert (LC : linkedX D' g' c (s + e)%Z).
    { split; auto. exists (p ++ [length (arcs (gr X))]), j. assert (NA : nth_error (arcs g') (length (arcs (gr X))) = Some {| a_pred := i; a_succ := j; a_score := (s + e + heur c - (s + heur h))%Z; a_words := skipn (length (words h)) (words c) |}).
      { rewrite A', A2, nth_error_app2, Nat.sub_diag by lia. reflexivity. }
      split; [auto|]. split.
      { eapply path_app; [exact (growth_path _ _ _ _ _ SA S' GR P)|]. change i with (a_pred {| a_pred := i; a_succ := j; a_score := (s + e + heur c - (s + heur h))%Z; a_words := skipn (length (words h)) (words c) |}). constructor; [apply alive_iff; auto|cbn; constructor]. }
      split.
      { assert (PA : forall q, pscore (arcs g') (q ++ [length (arcs (gr X))]) = (pscore (arcs g') q + (s + e + heur c - (s + heur h)))%Z).
        { induction q as [|k q IHq]; cbn [pscore app]; [rewrite NA; cbn; lia|]. rewrite IHq. lia. }
        rewrite PA, (growth_score _ _ _ _ _ GR P), PS. lia. }
      { unfold path_words. rewrite flat_map_app. fold (path_words (arcs g') p). rewrite (growth_words _ _ _ _ _ GR P). cbn [flat_map]. rewrite NA. cbn [a_words]. rewrite app_nil_r, SK, app_assoc, <- PW. exact WX. } }
    split; [|exact GS]. destruct GI as [q1 q2 q3 q4 q5 q6 q7 q8 q9 q10]. constructor; cbn [sd gr] in *; auto.
    + intros t i' Z. destruct (N _ _ Z) as [Z'|(-> & _ & _)].
      * destruct (q6 _ _ Z') as [|Z2]; [auto|]. rewrite T2 in LS. right; lia.
      * assert (i' = j) by congruence. subst. right; auto.
    + intros a Ia. rewrite A', A2 in Ia. apply in_app_or in Ia. destruct Ia as [Ia|[<-|[]]].
      * destruct (q7 a Ia) as (h' & c' & e' & B1 & B2 & B3 & B4 & B5). exists h', c', e'. split; [auto|]. split; [auto|]. split; [auto|]. split; [auto|]. auto.
      * exists h, c, e. cbn. split; [auto|]. split; [auto|]. split; [auto|]. split; [auto|]. split; [lia|]. now rewrite SK.
    + intros _. rewrite I', I2. destruct (Nat.eqb_spec i 0) as [->|NE].
      * destruct (start_state h s R) as [-> ->]; auto. apply (ix_inj (sd X) _ _ 0 q2); eauto.
      * destruct (arcs (gr X)) as [|a0 r0] eqn:EA; [|apply q8; discriminate]. exfalso. apply NE. symmetry. refine (no_arcs_path (gr X) 0 p i EA _). rewrite EA. exact P.
    + intros h' s' Z. destruct (SB _ Z) as [Z'|Z'].
      * apply item_inj with (dec := dec) in Z'; auto. destruct Z' as [-> ->]. exact LC.
      * exact (linked_mono X {| sd := D'; gr := g' |} _ _ GS (q9 _ _ Z')).
    + intro k. rewrite F', F2, q10. rewrite A', A2. split.
      * intros [[Cc ->]|[Z|(a & c' & B1 & B2 & B3 & B4 & B5)]]; [right|left; auto|right].
        -- eexists; exists c. split; [apply in_or_app; right; left; reflexivity|]. auto.
        -- exists a, c'. split; [apply in_or_app; now left|]. auto.
      * intros [Z|(a & c' & B1 & B2 & B3 & B4 & B5)]; [auto|]. apply in_app_or in B1. destruct B1 as [B1|[<-|[]]].
        -- right; right. exists a, c'. split; [auto|]. split; [auto|]. split; [auto|]. split; [auto|]. destruct (q7 a B1) as (h' & c2 & e' & W1 & W2 & W3 & W4 & W5). rewrite B2 in W4.
           assert (ST : st c' = st c2) by (eapply (ix_inj D'); eauto). now rewrite ST.
        -- left. cbn in B2. subst k. split; auto. rewrite (complete_state c c'); auto. eapply (ix_inj D'); eauto.
  - (* the expansion was not accepted and its state is new: no arc *)
    eexists. split; [reflexivity|]. cbn [sd gr]. split; [auto|].
    assert (OLD : forall u i, ix D' u = Some i -> ix (sd X) u = Some i). { intros u k Z. destruct (N u k Z) as [|(-> & _)]; auto. congruence. }
    assert (GS : gstep X {| sd := D'; gr := gr X |}) by (split; [exact M|split; [apply growth_refl|split; exact SA]]).
    split; [|exact GS]. destruct GI as [q1 q2 q3 q4 q5 q6 q7 q8 q9 q10]. constructor; cbn [sd gr] in *; auto.
    + intros t k Z. apply OLD in Z. eauto.
    + intros a Ia. destruct (q7 a Ia) as (h' & c' & e' & B1 & B2 & B3 & B4 & B5). exists h', c', e'. split; [auto|]. split; [auto|]. split; [auto|]. split; [auto|]. auto.
    + intros h' s' Z. destruct (SB _ Z) as [Z'|Z'].
      * exfalso. apply item_inj with (dec := dec) in Z'; auto. destruct Z' as [-> ->]. destruct IV as ((_ & _ & _ & BL) & _). destruct (BL _ Z) as (k & sc & Y & _).
        unfold ix in Ej. change (hstate (item c (s + e)%Z)) with (st c) in Y. rewrite Y in Ej. discriminate.
      * exact (linked_mono X {| sd := D'; gr := gr X |} _ _ GS (q9 _ _ Z')).
    + intro k. rewrite q10. split; intros [Z|(a & c' & A1 & A2 & A3 & A4 & A5)]; auto; right; exists a, c'; auto 10.
Qed.

(** ** popping *)
Lemma mspop_dict : forall M h M', ms_pop M = Some (h, M') -> sdict M' = sdict M.
Proof.
  intros M h M' E. unfold ms_pop in E. destruct (sorted M) as [|k0 r0]; [discriminate|]. destruct (st_top _); [|discriminate]. destruct (if bfirst M then _ else _) as [[k nd]|]; [|discriminate].
  destruct (st_top _) as [t|]; [|discriminate]. destruct (eraseRecInfo _ _) as [M1|] eqn:Q; [|discriminate]. assert (S1 : sdict M1 = sdict M) by (unfold eraseRecInfo in Q; destruct (aget _ _ _) as [[a b]|]; inversion Q; reflexivity).
  destruct (st_pop _) as [[u l']|]; [|discriminate]. inversion E; subst. destruct (_ =? 0); exact S1.
Qed.
Notation pop := (pop H dec heur dist complete bf GEPS).
Lemma pop_dict : forall D w D', pop D = Some (w, D') -> sdict (cont D') = sdict (cont D).
Proof.
  intros D w D' E. unfold SearchModel.pop in E. destruct bf.
  - destruct (ms_top _ _) as [t|]; [|discriminate]. destruct (complete _).
    + destruct (ms_pop _) as [[h M]|] eqn:Q; [|discriminate]. apply mspop_dict in Q. inversion E; subst. exact Q.
    + destruct (ms_pop _) as [[h M]|] eqn:Q; [|discriminate]. apply mspop_dict in Q. inversion E; subst. exact Q.
  - destruct (ms_pop _) as [[h M]|] eqn:Q; [|discriminate]. apply mspop_dict in Q. inversion E; subst. exact Q.
Qed.
Lemma same_dict : forall xs X D', GInv xs X -> Inv D' -> sdict (cont D') = sdict (cont (sd X)) -> (forall g, In g (stored (cont D')) -> In g (stored (cont (sd X)))) -> GInv xs {| sd := D'; gr := gr X |}.
Proof.
  intros xs X D' GI IV E SB. assert (IX : forall t, ix D' t = ix (sd X) t) by (intro; unfold ix; now rewrite E). destruct GI as [q1 q2 q3 q4 q5 q6 q7 q8 q9 q10]. constructor; cbn [sd gr]; auto.
  - now rewrite E.
  - intros t i. rewrite !IX. eauto.
  - destruct q4 as (tbl & T). exists tbl. intros h i O. rewrite IX. eauto.
  - intros t i. rewrite IX. eauto.
  - intros a Q. destruct (q7 a Q) as (h & c & e & Z). exists h, c, e. now rewrite !IX.
  - intros h s Q. apply SB in Q. destruct (q9 _ _ Q) as (R & p & i & Z). split; auto. exists p, i. now rewrite IX.
  - intro j. rewrite q10. split; intros [Z|(a & c & Z)]; auto; right; exists a, c; rewrite ?IX in *; auto.
Qed.
Lemma pop_g : forall xs X, GInv xs X -> ms_isempty (cont (sd X)) = false -> exists h s D', pop (sd X) = Some ((h, s), D') /\ GInv xs {| sd := D'; gr := gr X |} /\
  linked X h s /\ Permutation (stored (cont (sd X))) (item h s :: stored (cont D')) /\ ix D' = ix (sd X).
Proof.
  intros xs X GI NE. destruct (pop_ok H enc dec st cl heur dist complete succs bf GEPS WORST dec_enc start s0 J dist_ok cl_ok (sd X) (gi_inv _ _ GI) NE) as (h & s & D' & E & IV & R & P & _ & _ & _).
  exists h, s, D'. split; [auto|]. pose proof (pop_dict _ _ _ E) as ED. split; [|split; [|split; [auto|unfold ix; now rewrite ED]]].
  - apply same_dict; auto. intros g Q. apply (Permutation_in _ (Permutation_sym P)). now right.
  - apply (gi_stored _ _ GI). apply (Permutation_in _ (Permutation_sym P)). now left.
Qed.
Lemma select_g : forall n xs X, GInv xs X -> exists ws D', select n (sd X) = Some (ws, D') /\ GInv xs {| sd := D'; gr := gr X |} /\ Forall (fun w => linked X (fst w) (snd w)) ws /\ ix D' = ix (sd X).
Proof.
  induction n as [|n IH]; intros xs X GI; cbn [SearchModel.select].
  - exists [], (sd X). destruct X. auto.
  - destruct (ms_isempty (cont (sd X))) eqn:E. { exists [], (sd X). destruct X. auto. }
    destruct (pop_g xs X GI E) as (h & s & D1 & E1 & GI1 & L & P & IX1). rewrite E1. destruct (IH xs _ GI1) as (ws & D2 & E2 & GI2 & F2 & IX2). cbn [sd gr] in *. rewrite E2.
    exists ((h, s) :: ws), D2. split; [auto|]. split; [auto|]. split; [|congruence]. constructor; auto. eapply Forall_impl; [|exact F2]. intros w (R & p & i & Z). split; auto. exists p, i. now rewrite <- IX1.
Qed.
(** ** the loops: same results as without a graph, and the invariant *)
Lemma g_push_all_ok : forall l xs X h s, GInv xs X -> linked X h s -> (forall w, In w l -> exists e, In (fst w, e) (succs h) /\ snd w = (s + e)%Z) ->
  exists X', g_push_all (h, s) l X = Some X' /\ push_all l (sd X) = Some (sd X') /\ GInv xs X' /\ gstep X X'.
Proof.
  induction l as [|[c z] l IH]; intros xs X h s GI L A; cbn [SearchWgModel.g_push_all SearchModel.push_all].
  - exists X. pose proof (gi_sane _ _ GI). split; [auto|]. split; [auto|]. split; [auto|]. split; [auto|]. split; [apply growth_refl|auto].
  - destruct (A _ (or_introl eq_refl)) as (e & Q & E). cbn [fst snd] in Q, E. subst z. destruct (pushG_ok xs X h s c e GI L Q) as (X1 & E1 & P1 & GI1 & S1). rewrite E1, P1.
    destruct (IH xs X1 h s GI1 (linked_mono _ _ _ _ S1 L)) as (X2 & E2 & P2 & GI2 & S2); [intros; apply A; now right|]. exists X2. split; [auto|]. split; [auto|]. split; [auto|]. eapply gstep_trans; eauto.
Qed.
Lemma expand_in : forall h s w, In w (rev (expand (h, s))) -> exists e, In (fst w, e) (succs h) /\ snd w = (s + e)%Z.
Proof. intros h s w Q. apply in_rev in Q. unfold SearchModel.expand in Q. apply in_map_iff in Q. destruct Q as ((c, e) & <- & Q). cbn. eauto. Qed.
Definition glinked (X : gdec) (r : whyp H) : Prop := r = null \/ linked X (fst r) (snd r).
Lemma glinked_mono : forall X X' r, gstep X X' -> glinked X r -> glinked X' r.
Proof. intros X X' r S [->|L]; [now left|right; eapply linked_mono; eauto]. Qed.
Lemma g_process_ok : forall ws found result xs X, GInv xs X -> Forall (fun w => linked X (fst w) (snd w)) ws -> glinked X result ->
  exists f' r' X', g_process ws found result X = Some (f', r', X') /\ process ws found result (sd X) = Some (f', r', sd X') /\ GInv xs X' /\ gstep X X' /\ glinked X' r'.
Proof.
  induction ws as [|[h s] ws IH]; intros found result xs X GI A L; cbn [SearchWgModel.g_process SearchModel.process].
  - exists found, result, X. pose proof (gi_sane _ _ GI). split; [auto|]. split; [auto|]. split; [auto|]. split; [split; [auto|split; [apply growth_refl|auto]]|auto].
  - inversion A as [|? ? L1 A1]; subst. cbn [fst snd] in *. destruct (complete h); [destruct found; cbn [negb]|].
    + destruct (push_ok H enc dec st cl heur dist complete succs null bf prune GEPS LOWEST WORST dec_enc start s0 size cl_ok (h, s) (sd X) (gi_inv _ _ GI) (proj1 L1)) as (D' & E & _). rewrite E.
      destruct (plain_push xs X h s D' GI L1 E) as [GI1 S1].
      destruct (IH true result xs _ GI1) as (f' & r' & X' & E1 & E2 & GI2 & S2 & L2).
      { eapply Forall_impl; [|exact A1]. intros w. apply linked_mono; auto. }
      { eapply glinked_mono; eauto. }
      exists f', r', X'. split; [auto|]. split; [auto|]. split; [auto|]. split; [eapply gstep_trans; eauto|auto].
    + apply IH; auto. now right.
    + destruct (g_push_all_ok (rev (expand (h, s))) xs X h s GI L1 (expand_in h s)) as (X1 & E1 & P1 & GI1 & S1). rewrite E1, P1.
      fold (better H dist result h s). destruct (IH found (better H dist result h s) xs X1 GI1) as (f' & r' & X' & E2 & P2 & GI2 & S2 & L2).
      { eapply Forall_impl; [|exact A1]. intros w. apply linked_mono; auto. }
      { apply (glinked_mono X); auto. unfold better. destruct (_ <? _); [now right|]. destruct (_ && _); [now right|auto]. }
      exists f', r', X'. split; [auto|]. split; [auto|]. split; [auto|]. split; [eapply gstep_trans; eauto|auto].
Qed.
Lemma g_loop_ok : forall todo iter result xs X, GInv xs X -> glinked X result ->
  exists r it X', g_loop todo iter result X = Some (r, it, X') /\ decode_loop todo iter result (sd X) = Some (r, it, sd X') /\ GInv xs X' /\ glinked X' r /\ gstep X X'.
Proof.
  induction todo as [|todo IH]; intros iter result xs X GI L; cbn [SearchWgModel.g_loop SearchModel.decode_loop].
  - exists result, iter, X. pose proof (gi_sane _ _ GI). split; [auto|]. split; [auto|]. split; [auto|]. split; [auto|]. split; [auto|split; [apply growth_refl|auto]].
  - destruct (select_g I xs X GI) as (ws & D1 & E1 & GI1 & F1 & IX). rewrite E1.
    assert (S1 : gstep X {| sd := D1; gr := gr X |}). { pose proof (gi_sane _ _ GI). split; [cbn; now rewrite IX|]. split; [apply growth_refl|auto]. }
    destruct ws as [|w ws].
    + eexists _, _, _. split; [reflexivity|]. split; [reflexivity|]. split; [auto|]. split; [eapply glinked_mono; eauto|auto].
    + destruct (g_process_ok (w :: ws) false result xs _ GI1) as (f' & r' & X2 & E2 & P2 & GI2 & S2 & L2).
      { eapply Forall_impl; [|exact F1]. intro. apply linked_mono. auto. }
      { eapply glinked_mono; eauto. }
      rewrite E2. cbn [sd] in P2. rewrite P2. destruct f'.
      * eexists _, _, _. split; [reflexivity|]. split; [reflexivity|]. split; [auto|]. split; [auto|eapply gstep_trans; eauto].
      * destruct (IH (S iter) r' xs X2 GI2 L2) as (r & it & X3 & E3 & P3 & GI3 & L3 & S3). exists r, it, X3. split; [auto|]. split; [auto|]. split; [auto|]. split; [auto|].
        eapply gstep_trans; [|eauto]. eapply gstep_trans; eauto.
Qed.
(** ** paths are derivations *)
Lemma path_derivation : forall xs X i p t, GInv xs X -> gpath (gr X) i p t -> forall h, ok h -> ix (sd X) (st h) = Some i ->
  exists c e, ext h c e /\ ix (sd X) (st c) = Some t /\ pscore (arcs (gr X)) p = (e + heur c - heur h)%Z /\ words c = words h ++ path_words (arcs (gr X)) p.
Proof.
  intros xs X i p t GI P. induction P as [i|k a p t A P IH]; intros h O E.
  - exists h, 0%Z. split; [constructor|]. split; [auto|]. split; [cbn; lia|]. unfold path_words. cbn. now rewrite app_nil_r.
  - destruct A as [A _]. destruct (gi_arcs _ _ GI a (nth_error_In _ _ A)) as (h1 & c1 & e1 & O1 & Q1 & X1 & Y1 & Z1 & W1).
    assert (S : st h1 = st h) by (eapply (ix_inj (sd X)); eauto; apply (gi_dict _ _ GI)). destruct (lab_ok h1 h O1 O S) as (HE & _ & N). destruct (N c1 e1 Q1) as (d & Qd & Sd & Wd).
    assert (Od : ok d) by exact (step_ok _ _ _ O Qd). assert (Oc1 : ok c1) by exact (step_ok _ _ _ O1 Q1).
    destruct (IH d Od ltac:(congruence)) as (c & e & Ec & Xc & Pc & Wc). exists c, (e1 + e)%Z. split; [eapply ext_cons; eauto|]. split; [auto|].
    destruct (lab_ok c1 d Oc1 Od Sd) as (HC & _ & _). split.
    + cbn [pscore]. rewrite A, Z1, Pc. lia.
    + rewrite Wc, (Wd _ W1). unfold path_words. cbn [flat_map]. now rewrite A, app_assoc.
Qed.
Lemma acyclic_g : forall xs X, GInv xs X -> acyclic (arcs (gr X)).
Proof.
  intros xs X GI. destruct (gi_tbl _ _ GI) as (tbl & T). exists tbl. intros i a A. destruct (gi_arcs _ _ GI a (nth_error_In _ _ A)) as (h & c & e & O & Q & X1 & Y1 & _).
  rewrite (T h _ O X1), (T c _ (step_ok _ _ _ O Q) Y1). apply (app_ok h c e O Q).
Qed.
(** ** sessions *)
Notation g_session := (g_session H enc dec st cl heur dist complete succs words null bf prune I MAXIT GEPS LOWEST WORST).
Notation g_translate := (g_translate H enc dec st cl heur dist complete succs words null bf prune I MAXIT GEPS LOWEST WORST).
Notation g_next_n := (g_next_n H enc dec st cl heur dist complete succs words null bf prune I MAXIT GEPS LOWEST WORST).
Notation next_n := (next_n H enc dec st cl heur dist complete succs null bf prune I MAXIT GEPS LOWEST WORST).
Notation session := (session H enc dec st cl heur dist complete succs null bf prune I MAXIT GEPS LOWEST WORST).
Notation translate := (translate H enc dec st cl heur dist complete succs null bf prune I MAXIT GEPS LOWEST WORST).
Lemma g_start : forall max flag, max <> 0 -> exists D, push (start, s0) (cleared WORST max flag) = Some D /\ GInv [] {| sd := D; gr := wg_new |}.
Proof.
  intros max flag N. destruct (start_ok H enc dec st cl heur dist complete succs null bf prune GEPS LOWEST WORST dec_enc start s0 size cl_ok max flag N) as (D & E & IV & _ & _ & _ & SB). exists D. split; auto.
  destruct (push_ix _ _ _ _ E) as [[M NW] DK]. { split; [constructor|]. split; intros; discriminate. }
  assert (ONLY : forall t i, ix D t = Some i -> t = st start /\ i = 0). { intros t i Q. destruct (NW t i Q) as [Z|(-> & _ & ->)]; [discriminate|auto]. }
  constructor; cbn [sd gr]; auto.
  - intros t i Q. destruct (ONLY _ _ Q) as [-> ->]. auto.
  - exists (fun _ => dist start). intros h i (x & Ox) Q. destruct (ONLY _ _ Q) as [Z _]. assert (O : ok h) by (now exists x). destruct (lab_ok h start O ltac:(exists 0%Z; constructor) Z) as (_ & DE & _). auto.
  - exact sane_new.
  - intros t i Q. left. apply (ONLY _ _ Q).
  - intros a [].
  - intro Q. now elim Q.
  - intros h s Q. pose proof (SB _ Q) as Z. apply item_inj with (dec := dec) in Z; auto. destruct Z as [-> ->]. split; [exists 0%Z; split; [constructor|lia]|].
    assert (exists i, ix D (st start) = Some i) as (i & Ei). { destruct IV as ((_ & _ & _ & BL) & _). destruct (BL _ Q) as (k & sc & Y & _). change (hstate (item start s0)) with (st start) in Y. unfold ix. rewrite Y. cbn. eauto. }
    exists [], i. split; [auto|]. destruct (ONLY _ _ Ei) as [_ ->]. split; [constructor|]. split; [cbn; lia|]. unfold path_words. cbn. now rewrite app_nil_r.
  - intro j. split; [intros []|intros [[]|(a & c & [] & _)]].
Qed.
Lemma post_ok : forall xs X r, GInv xs X -> exists k, GInv (k ++ xs) (post_trans_actions H st complete r X) /\ gstep X (post_trans_actions H st complete r X) /\ sd (post_trans_actions H st complete r X) = sd X /\
  (complete (fst r) = true -> k = []) /\ (complete (fst r) = false -> k = [match ix (sd X) (st (fst r)) with Some i => i | None => 0 end]).
Proof.
  intros xs X r GI. unfold post_trans_actions. pose proof (gi_sane _ _ GI) as SA. destruct (complete (fst r)).
  - exists []. split; [auto|]. split; [split; [auto|split; [apply growth_refl|auto]]|]. split; [auto|]. split; [auto|discriminate].
  - rewrite stateIndex_ix. set (k := match ix (sd X) (st (fst r)) with Some i => i | None => 0 end). exists [k].
    assert (S' : sane (addFinalState (gr X) k)) by (now apply sane_final). split.
    + destruct GI as [q1 q2 q3 q4 q5 q6 q7 q8 q9 q10]. constructor; cbn [sd gr]; auto.
      intro j. cbn [addFinalState finals]. rewrite set_insert_in, q10. cbn [app In arcs addFinalState]. intuition.
    + split; [split; [auto|split; [exists []; now rewrite app_nil_r|auto]]|]. split; [auto|]. split; [discriminate|auto].
Qed.
Lemma g_worst : forall xs X, GInv xs X -> GInv xs {| sd := {| cont := cont (sd X); bestComplete := WORST |}; gr := gr X |}.
Proof. intros xs X GI. apply (same_dict xs X); auto. apply Inv_worst. apply (gi_inv _ _ GI). Qed.
Definition linked_res (X : gdec) (r : whyp H * nat) : Prop := glinked X (fst r).
Lemma g_next_ok : forall n xs X, GInv xs X -> exists l X', g_next_n n X = Some (l, X') /\ next_n n (sd X) = Some (l, sd X') /\ GInv xs X' /\ gstep X X' /\ Forall (linked_res X') l.
Proof.
  induction n as [|n IH]; intros xs X GI; cbn [SearchWgModel.g_next_n SearchModel.next_n].
  - exists [], X. pose proof (gi_sane _ _ GI). split; [auto|]. split; [auto|]. split; [auto|]. split; [split; [auto|split; [apply growth_refl|auto]]|constructor].
  - unfold SearchWgModel.g_next, g_decode, SearchModel.getNextTrans, decode. destruct (g_loop_ok (MAXIT - 1) 1 null xs _ (g_worst xs X GI) (or_introl eq_refl)) as (r & it & X1 & E1 & P1 & GI1 & L1 & S1).
    cbn [sd] in P1. rewrite E1, P1. destruct (IH xs X1 GI1) as (l & X2 & E2 & P2 & GI2 & S2 & F2). rewrite E2, P2. exists ((r, it) :: l), X2. split; [auto|]. split; [auto|]. split; [auto|].
    split; [|constructor; [unfold linked_res; eapply glinked_mono; eauto|auto]]. eapply gstep_trans; [|eauto]. destruct S1 as (a & b & c & d). split; [exact a|]. split; [exact b|]. split; [exact c|exact d].
Qed.
Theorem g_session_ok : forall max flag n, max <> 0 -> exists r0 l X xs, g_session max flag (start, s0) n = Some (r0 :: l, X) /\ session max flag (start, s0) n = Some (r0 :: l, sd X) /\ GInv xs X /\ Forall (linked_res X) (r0 :: l) /\
  (complete (fst (fst r0)) = true -> xs = []) /\ (complete (fst (fst r0)) = false -> exists k, xs = [k] /\ (ix (sd X) (st (fst (fst r0))) = Some k \/ k = 0)).
Proof.
  intros max flag n N. unfold SearchWgModel.g_session, SearchModel.session, SearchWgModel.g_translate, SearchModel.translate. destruct (g_start max flag N) as (D & E & GI). rewrite E.
  unfold g_decode, decode. destruct (g_loop_ok (MAXIT - 1) 1 null [] _ GI (or_introl eq_refl)) as (r & it & X1 & E1 & P1 & GI1 & L1 & S1). cbn [sd] in P1. rewrite E1, P1.
  destruct (post_ok [] X1 r GI1) as (k & GI2 & S2 & ES & K1 & K2). destruct (g_next_ok n _ _ GI2) as (l & X3 & E3 & P3 & GI3 & S3 & F3). rewrite E3. rewrite ES in P3. rewrite P3.
  exists (r, it), l, X3, k. split; [auto|]. split; [auto|]. split; [now rewrite app_nil_r in GI3|]. split.
  - constructor; auto. unfold linked_res. cbn [fst]. eapply glinked_mono; [exact S3|]. eapply glinked_mono; eauto.
  - cbn [fst]. split; [auto|]. intro Q. rewrite (K2 Q). eexists. split; [reflexivity|]. destruct (ix (sd X1) (st (fst r))) as [i|] eqn:Ei; [left|now right].
    destruct S3 as (M3 & _). apply M3. rewrite ES. auto.
Qed.

(** ** breadth-first search, one hypothesis at a time: the arcs come in topological order *)
Lemma pop_min : bf = true -> forall D h s D', Inv D -> ms_isempty (cont D) = false -> pop D = Some ((h, s), D') -> forall h' s', In (item h' s') (stored (cont D)) -> dist h <= dist h'.
Proof.
  intros EB D h s D' IV NE E h' s' Q. pose proof IV as (SV & A & _). unfold SearchModel.pop in E. rewrite EB in E.
  assert (SVt : SInv (set_bf true (cont D))) by (now apply SInv_bf).
  assert (LE : forall a b za zb, In (item a za) (stored (cont D)) -> In (item b zb) (stored (cont D)) -> cls_lt (cl a) (cl b) \/ cl b = cl a -> dist a <= dist b).
  { intros a b za zb Qa Qb L. assert (Oa : ok a) by (destruct (A _ Qa) as (x & z & Ex & Rx); apply item_inj with (dec := dec) in Ex; auto; destruct Ex as [-> ->]; eapply SearchProofs.reach_ok; eauto).
    assert (Ob : ok b) by (destruct (A _ Qb) as (x & z & Ex & Rx); apply item_inj with (dec := dec) in Ex; auto; destruct Ex as [-> ->]; eapply SearchProofs.reach_ok; eauto).
    rewrite <- (cl_ok EB a Oa), <- (cl_ok EB b Ob). destruct L as [[L|[L _]]| ->]; lia. }
  destruct (top_spec (set_bf true (cont D)) 0%Z SVt eq_refl NE) as (t & Et & It & Mt). change (stored (set_bf true (cont D))) with (stored (cont D)) in *. rewrite Et in E.
  destruct (A t It) as (ht & zt & -> & Rt). unfold from_stack in E. cbn [fst] in E. assert (Dt : dec (hdata (item ht zt)) = ht) by (unfold SearchProofs.item, in_stack; cbn; apply dec_enc). rewrite Dt in E.
  assert (HD : forall g, In g (stored (cont D)) -> exists a za, g = item a za /\ reach a za /\ dec (hdata g) = a). { intros g Qg. destruct (A g Qg) as (a & za & -> & R). exists a, za. split; [auto|]. split; [auto|]. unfold SearchProofs.item, in_stack. cbn. apply dec_enc. }
  destruct (complete ht) eqn:Ct.
  - destruct (pop_spec (set_bf false (set_bf true (cont D))) ltac:(now apply SInv_bf) NE) as (g & M' & E' & _ & _ & _ & _ & P & _ & _). rewrite E' in E.
    change (stored (set_bf false (set_bf true (cont D)))) with (stored (cont D)) in P. assert (Ig : In g (stored (cont D))) by (apply (Permutation_in _ (Permutation_sym P)); now left).
    destruct (HD g Ig) as (a & za & -> & Ra & Da). unfold subtractHeuristic, subtractg in E. cbn [fst snd] in E. rewrite Da in E. inversion E; subst a.
    assert (Oh : ok h) by (eapply SearchProofs.reach_ok; eauto). assert (Oh' : ok h') by (destruct (A _ Q) as (x & z & Ex & Rx); apply item_inj with (dec := dec) in Ex; auto; destruct Ex as [-> ->]; eapply SearchProofs.reach_ok; eauto).
    assert (Ot : ok ht) by (eapply SearchProofs.reach_ok; eauto).
    assert (J <= dist h'). { replace J with (dist ht) by (now apply dist_ok). apply (LE ht h' zt s' It Q). destruct (Mt _ Q) as [L|[L _]]; auto. }
    destruct (dist_ok h Oh). lia.
  - destruct (pop_spec (set_bf true (cont D)) SVt NE) as (g & M' & E' & _ & _ & _ & _ & P & _ & Bt). rewrite E' in E.
    change (stored (set_bf true (cont D))) with (stored (cont D)) in *. assert (Ig : In g (stored (cont D))) by (apply (Permutation_in _ (Permutation_sym P)); now left).
    destruct (HD g Ig) as (a & za & -> & Ra & Da). unfold subtractHeuristic, subtractg in E. cbn [fst snd] in E. rewrite Da in E. inversion E; subst a.
    apply (LE h h' za s' Ig Q). destruct (Bt eq_refl _ Q) as [L|[L _]]; auto.
Qed.
(** [i] is the index of a state at distance [d] *)
Definition dix (D : decoder) (i d : nat) : Prop := exists h, ok h /\ ix D (st h) = Some i /\ dist h = d.
Definition Topo (m : nat) (X : gdec) : Prop :=
  (forall i j a b da db, i < j -> nth_error (arcs (gr X)) i = Some a -> nth_error (arcs (gr X)) j = Some b -> dix (sd X) (a_pred a) da -> dix (sd X) (a_pred b) db -> da <= db) /\
  (forall a d, In a (arcs (gr X)) -> dix (sd X) (a_pred a) d -> d <= m) /\
  (forall h s, In (item h s) (stored (cont (sd X))) -> m <= dist h).
Lemma dix_fun : forall D i d d', dict_ok (sdict (cont D)) -> dix D i d -> dix D i d' -> d = d'.
Proof. intros D i d d' OK (h & O & E & <-) (h' & O' & E' & <-). apply (lab_ok h h' O O'). eapply (ix_inj D); eauto. Qed.
(** an old arc keeps its distance *)
Lemma dix_old : forall xs X X' a d, GInv xs X -> GInv xs X' -> gstep X X' -> In a (arcs (gr X)) -> dix (sd X') (a_pred a) d -> dix (sd X) (a_pred a) d.
Proof.
  intros xs X X' a d GI GI' (M & _) Q D'. destruct (gi_arcs _ _ GI a Q) as (h & c & e & O & _ & E & _). exists h. split; [auto|]. split; [auto|].
  apply (dix_fun (sd X') (a_pred a)); [apply (gi_dict _ _ GI')|exists h; auto|auto].
Qed.
Lemma topo_push : forall xs X h s c e X', GInv xs X -> linked X h s -> In (c, e) (succs h) -> Topo (dist h) X -> pushG (h, s) (c, (s + e)%Z) X = Some X' -> Topo (dist h) X'.
Proof.
  intros xs X h s c e X' GI L Q (T1 & T2 & T3) E. destruct (pushG_ok xs X h s c e GI L Q) as (X2 & E2 & P2 & GI2 & S2). assert (X2 = X') by congruence. subst X2.
  assert (Oh : ok h) by (eapply SearchProofs.reach_ok; apply L). destruct (app_ok h c e Oh Q) as [_ DL].
  assert (SH : (gr X' = gr X \/ exists a, arcs (gr X') = arcs (gr X) ++ [a] /\ dix (sd X') (a_pred a) (dist h))).
  { unfold pushGivenPredHyp in E. rewrite P2 in E. unfold addArcToWordGraph in E. rewrite !stateIndex_ix in E. cbn [fst snd] in E.
    destruct L as (R & p & i & Ei & _). pose proof (proj1 S2 _ _ Ei) as Ei'. rewrite Ei' in E. destruct (ix (sd X') (st c)) as [j|]; [|inversion E; left; destruct X'; cbn in *; congruence].
    right. destruct (addArc _ i j _ _ _) as [g|] eqn:EA; [|discriminate]. exists {| a_pred := i; a_succ := j; a_score := (s + e + heur c - (s + heur h))%Z; a_words := skipn (length (words h)) (words c) |}.
    split; [|exists h; auto]. assert (EG : gr X' = g) by (destruct X'; cbn in *; congruence). rewrite EG. unfold addArc in EA. destruct (upd i _ _); [|discriminate]. destruct (upd j _ _); [|discriminate]. inversion EA. cbn.
    destruct (i =? INITIAL_STATE), (complete c); reflexivity. }
  assert (OLD : forall a d, In a (arcs (gr X)) -> dix (sd X') (a_pred a) d -> dix (sd X) (a_pred a) d) by (intros; eapply dix_old; eauto).
  split; [|split].
  - intros i j a b da db L1 A B Da Db. destruct SH as [SH|(x & SH & Dx)].
    + rewrite SH in A, B. apply (T1 i j a b da db); auto; (apply OLD; [eapply nth_error_In; eassumption|assumption]).
    + rewrite SH in A, B. assert (Lj : j < length (arcs (gr X) ++ [x])) by (apply nth_error_Some; congruence). rewrite app_length in Lj. cbn in Lj. rewrite nth_error_app1 in A by lia.
      destruct (Nat.eq_dec j (length (arcs (gr X)))) as [->|NE].
      * rewrite nth_error_app2, Nat.sub_diag in B by lia. inversion B; subst b. assert (db = dist h) by (eapply dix_fun; eauto; apply (gi_dict _ _ GI2)). subst db. eapply T2; [eapply nth_error_In; eauto|]. apply OLD; auto. eapply nth_error_In; eauto.
      * rewrite nth_error_app1 in B by lia. apply (T1 i j a b da db); auto; (apply OLD; [eapply nth_error_In; eassumption|assumption]).
  - intros a d Ia Da. destruct SH as [SH|(x & SH & Dx)]; rewrite SH in Ia; [eauto|]. apply in_app_or in Ia. destruct Ia as [Ia|[<-|[]]]; [eauto|].
    assert (d = dist h) by (eapply dix_fun; eauto; apply (gi_dict _ _ GI2)). lia.
  - intros h' s' Z. assert (RC : reach c (s + e)%Z) by (eapply SearchProofs.reach_step; eauto; apply L).
    destruct (push_ok H enc dec st cl heur dist complete succs null bf prune GEPS LOWEST WORST dec_enc start s0 size cl_ok (c, (s + e)%Z) (sd X) (gi_inv _ _ GI) RC) as (D' & E' & _ & _ & _ & _ & SB).
    rewrite P2 in E'. inversion E'; subst D'. destruct (SB _ Z) as [Z'|Z']; [|eauto]. cbn [fst snd] in Z'. apply item_inj with (dec := dec) in Z'; auto. destruct Z' as [-> ->]. lia.
Qed.
Lemma topo_push_all : forall l xs X h s X', GInv xs X -> linked X h s -> Topo (dist h) X -> (forall w, In w l -> exists e, In (fst w, e) (succs h) /\ snd w = (s + e)%Z) -> g_push_all (h, s) l X = Some X' -> Topo (dist h) X'.
Proof.
  induction l as [|[c z] l IH]; intros xs X h s X' GI L T A E; cbn [SearchWgModel.g_push_all] in E; [inversion E; subst; auto|].
  destruct (A _ (or_introl eq_refl)) as (e & Q & Ez). cbn [fst snd] in Q, Ez. subst z. destruct (pushG_ok xs X h s c e GI L Q) as (X1 & E1 & P1 & GI1 & S1). rewrite E1 in E.
  apply (IH xs X1 h s X'); [exact GI1|eapply linked_mono; eauto|apply (topo_push xs X h s c e X1); auto|intros; apply A; now right|exact E].
Qed.
Lemma topo_loop : bf = true -> I = 1 -> forall todo iter result xs X r it X' m, GInv xs X -> Topo m X -> g_loop todo iter result X = Some (r, it, X') -> exists m', Topo m' X'.
Proof.
  intros EB EI. induction todo as [|todo IH]; intros iter result xs X r it X' m GI T E; cbn [SearchWgModel.g_loop] in E; [inversion E; subst; eauto|].
  replace (select I (sd X)) with (select 1 (sd X)) in E by (now rewrite EI). cbn [SearchModel.select] in E. destruct (ms_isempty (cont (sd X))) eqn:Q; [inversion E; subst; exists m; destruct X; exact T|].
  destruct (pop_g xs X GI Q) as (h & s & D1 & E1 & GI1 & L & P & IX). rewrite E1 in E. cbn [SearchWgModel.g_process fst snd] in E.
  assert (PM := pop_min EB _ _ _ _ (gi_inv _ _ GI) Q E1).
  assert (IH0 : In (item h s) (stored (cont (sd X)))) by (apply (Permutation_in _ (Permutation_sym P)); now left).
  assert (TX : Topo (dist h) {| sd := D1; gr := gr X |}).
  { destruct T as (T1 & T2 & T3). unfold Topo, dix. cbn [sd gr]. rewrite IX. split; [exact T1|]. split.
    - intros a d Ia Da. specialize (T2 a d Ia Da). specialize (T3 _ _ IH0). lia.
    - intros h' s' Z. apply (PM h' s'). apply (Permutation_in _ (Permutation_sym P)). now right. }
  destruct (complete h) eqn:Ch; cbn [negb] in E; [inversion E; subst; eauto|]. fold (better H dist result h s) in E.
  assert (L1 : linkedX D1 (gr X) h s) by (unfold linkedX in *; now rewrite IX).
  destruct (g_push_all_ok (rev (expand (h, s))) xs _ h s GI1 L1 (expand_in h s)) as (X2 & E2 & _ & GI2 & _). rewrite E2 in E. cbv iota beta in E.
  eapply IH; [exact GI2|eapply topo_push_all; [exact GI1|exact L1|exact TX|exact (expand_in h s)|exact E2]|exact E].
Qed.
Lemma topo_order : forall xs X m, GInv xs X -> Topo m X -> topological (arcs (gr X)) (arcsPruned (gr X)).
Proof.
  intros xs X m GI (T1 & _) i j a b [A _] [B _] E. destruct (Nat.lt_ge_cases i j) as [|LE]; auto. exfalso.
  destruct (gi_arcs _ _ GI a (nth_error_In _ _ A)) as (h & c & e & O & Q & X1 & Y1 & _). destruct (gi_arcs _ _ GI b (nth_error_In _ _ B)) as (h2 & c2 & e2 & O2 & Q2 & X2 & Y2 & _).
  assert (S : st c = st h2) by (eapply (ix_inj (sd X)); [apply (gi_dict _ _ GI)|exact Y1|congruence]). destruct (lab_ok c h2 (step_ok _ _ _ O Q) O2 S) as (_ & DE & _). destruct (app_ok h c e O Q) as [_ DL].
  destruct (Nat.eq_dec i j) as [->|NE].
  - assert (a = b) by congruence. subst b. assert (S' : st h = st h2) by (eapply (ix_inj (sd X)); [apply (gi_dict _ _ GI)|exact X1|exact X2]). destruct (lab_ok h h2 O O2 S') as (_ & DE' & _). lia.
  - assert (dist h2 <= dist h) by (eapply (T1 j i b a); eauto; [lia|exists h2; auto|exists h; auto]). lia.
Qed.
Lemma topo_next : bf = true -> I = 1 -> forall n xs X l X' m, GInv xs X -> Topo m X -> g_next_n n X = Some (l, X') -> exists m', Topo m' X'.
Proof.
  intros EB EI. induction n as [|n IH]; intros xs X l X' m GI T E; cbn [SearchWgModel.g_next_n] in E; [inversion E; subst; eauto|].
  unfold SearchWgModel.g_next, g_decode in E. destruct (g_loop_ok (MAXIT - 1) 1 null xs _ (g_worst xs X GI) (or_introl eq_refl)) as (r & it & X1 & E1 & _ & GI1 & _). rewrite E1 in E.
  destruct (g_next_n n X1) as [[l1 X2]|] eqn:E2; [|discriminate]. injection E as <- ->.
  destruct (topo_loop EB EI _ _ _ xs _ _ _ _ m (g_worst xs X GI) T E1) as (m1 & T1). eapply IH; eauto.
Qed.
Theorem g_session_topological : bf = true -> I = 1 -> forall max flag n l X, max <> 0 -> g_session max flag (start, s0) n = Some (l, X) -> topological (arcs (gr X)) (arcsPruned (gr X)).
Proof.
  intros EB EI max flag n l X N E. unfold SearchWgModel.g_session, SearchWgModel.g_translate in E. destruct (g_start max flag N) as (D & ED & GI). rewrite ED in E.
  unfold g_decode in E. destruct (g_loop_ok (MAXIT - 1) 1 null [] _ GI (or_introl eq_refl)) as (r & it & X1 & E1 & P1 & GI1 & L1 & S1). rewrite E1 in E.
  assert (T0 : Topo 0 {| sd := D; gr := wg_new |}). { split; [|split]; cbn [sd gr]; [intros i j a b da db _ A; destruct i; discriminate|intros a d []|intros; lia]. }
  destruct (topo_loop EB EI _ _ _ [] _ _ _ _ 0 GI T0 E1) as (m1 & T1).
  destruct (post_ok [] X1 r GI1) as (k & GI2 & S2 & ES & _). 
  assert (T2 : Topo m1 (post_trans_actions H st complete r X1)). { unfold post_trans_actions. destruct (complete (fst r)); exact T1. }
  destruct (g_next_n n _) as [[l2 X3]|] eqn:E3; [|discriminate]. injection E as <- ->.
  destruct (topo_next EB EI n _ _ _ _ m1 GI2 T2 E3) as (m2 & T3).
  destruct (g_next_ok n _ _ GI2) as (l3 & X4 & E4 & _ & GI4 & _). assert (X4 = X) by congruence. subst X4. eapply topo_order; eauto.
Qed.
(** ** the statement about finished graphs *)
Lemma path_last : forall g s p t, gpath g s p t -> p <> [] -> exists a, In a (arcs g) /\ a_succ a = t.
Proof.
  intros g s p t P. induction P as [|i a p t A P IH]; intro N; [congruence|]. destruct p as [|k p].
  - inversion P; subst. exists a. split; auto. eapply nth_error_In; apply A.
  - apply IH. discriminate.
Qed.
Lemma path_up : forall g tbl, (forall i a, nth_error (arcs g) i = Some a -> tbl (a_pred a) < tbl (a_succ a)) -> forall s p t, gpath g s p t -> p <> [] -> tbl s < tbl t.
Proof.
  intros g tbl U s p t P. induction P as [|i a p t A P IH]; intro N; [congruence|]. specialize (U _ _ (proj1 A)). destruct p as [|k p]; [inversion P; subst; lia|].
  assert (tbl (a_succ a) < tbl t) by (apply IH; discriminate). lia.
Qed.
Theorem graph_ok : (forall c, ok c -> complete c = true -> heur c = 0%Z) -> forall max flag n, max <> 0 -> exists r0 l X, g_session max flag (start, s0) n = Some (r0 :: l, X) /\ session max flag (start, s0) n = Some (r0 :: l, sd X) /\ (exists ops, Forall no_prune ops /\ wg_run ops wg_new = Some (gr X)) /\ acyclic (arcs (gr X)) /\ (forall p t, p <> [] -> gpath (gr X) 0 p t -> exists c e, ext start c e /\ words c = words start ++ path_words (arcs (gr X)) p /\    (initScore (gr X) + pscore (arcs (gr X)) p = s0 + e + heur c)%Z /\    (complete c = true -> In t (finals (gr X))) /\    (In t (finals (gr X)) -> complete c = true \/ (complete (fst (fst r0)) = false /\ st c = st (fst (fst r0))))) /\ Forall (fun r => fst r = null \/ fst r = (start, s0) \/ exists p t, p <> [] /\ gpath (gr X) 0 p t /\ words (fst (fst r)) = words start ++ path_words (arcs (gr X)) p /\    (initScore (gr X) + pscore (arcs (gr X)) p = snd (fst r) + heur (fst (fst r)))%Z /\ (complete (fst (fst r)) = true -> In t (finals (gr X))) /\ ok (fst (fst r))) (r0 :: l).
Proof.
  intros HC max flag n N. destruct (g_session_ok max flag n N) as (r0 & l & X & xs & E & P & GI & LK & X0 & X1). exists r0, l, X. split; [auto|]. split; [auto|].
  split; [destruct (gi_sane _ _ GI) as (_ & _ & O); exact O|]. pose proof (acyclic_g _ _ GI) as AC. split; [auto|].
  assert (Os : ok start) by (exists 0%Z; constructor).
  assert (IX0 : forall p t, p <> [] -> gpath (gr X) 0 p t -> ix (sd X) (st start) = Some 0 /\ arcs (gr X) <> []).
  { intros p t NE Q. destruct (path_last _ _ _ _ Q NE) as (a & Ia & _). destruct (gi_arcs _ _ GI a Ia) as (h & c & e & _ & _ & I1 & _). split; [eapply (gi_start _ _ GI); eauto|]. intro Z. rewrite Z in Ia. destruct Ia. }
  assert (FIN : forall p t c, p <> [] -> gpath (gr X) 0 p t -> ok c -> ix (sd X) (st c) = Some t -> complete c = true -> In t (finals (gr X))).
  { intros p t c NE Q Oc Ic Cc. apply (gi_finals _ _ GI). right. destruct (path_last _ _ _ _ Q NE) as (a & Ia & Ea). exists a, c. auto. }
  split.
  - intros p t NE Q. destruct (IX0 p t NE Q) as [I0 AN]. destruct (path_derivation _ _ _ _ _ GI Q start Os I0) as (c & e & Ec & Ic & Sc & Wc). exists c, e. split; [auto|]. split; [auto|].
    split; [rewrite (gi_init _ _ GI AN); lia|]. assert (Oc : ok c) by (now exists e). split; [intro Cc; eauto|].
    intro F. apply (gi_finals _ _ GI) in F. destruct F as [F|(a & c' & Ia & Ea & Oc' & Cc' & Ic')].
    + destruct (complete (fst (fst r0))) eqn:C0; [rewrite (X0 eq_refl) in F; destruct F|]. destruct (X1 eq_refl) as (k & -> & K). destruct F as [<-|[]]. destruct K as [K| ->].
      * right. split; auto. eapply (ix_inj (sd X)); [apply (gi_dict _ _ GI)|exact Ic|exact K].
      * exfalso. destruct AC as (tbl & U). pose proof (path_up _ tbl U _ _ _ Q NE). lia.
    + left. rewrite (complete_state c c'); auto. eapply (ix_inj (sd X)); [apply (gi_dict _ _ GI)|exact Ic|exact Ic'].
  - eapply Forall_impl; [|exact LK]. intros [[h s] it] [Q|((e & Ee & Es) & p & i & Ei & Pi & Si & Wi)]; [now left|]. cbn [fst snd] in *. right.
    destruct p as [|k p].
    + left. inversion Pi; subst i. assert (Oh : ok h) by (now exists e).
      assert (st h = st start). { eapply (ix_inj (sd X)); [apply (gi_dict _ _ GI)|exact Ei|eapply (gi_start _ _ GI); eauto]. }
      assert (R : reach h s) by (exists e; auto). destruct (start_state h s R) as [-> ->]; auto.
    + right. exists (k :: p), i. destruct (IX0 (k :: p) i ltac:(discriminate) Pi) as [_ AN]. split; [discriminate|]. split; [auto|]. split; [auto|]. split; [rewrite (gi_init _ _ GI AN); lia|].
      split; [|now exists e]. intro Ch. refine (FIN (k :: p) i h _ Pi _ Ei Ch); [discriminate|exists e; exact Ee].
Qed.
End SearchWg.
