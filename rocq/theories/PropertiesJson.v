(** Source sentences given as JSON: C150, C151. *)
From Coq Require Import Ascii String Arith List Bool Lia Sorted.
From Verif Require Import DecSpec TextSpec JsonModel JsonSpec JsonProofs.
Import ListNotations.
Open Scope nat_scope.

(** C150 : each usable tag, in order, is given the first place of its phrase after the place of the tag before it; the first tag that has no such
    place ends the reading.  The run is undefined only if some phrase runs over the end of the sentence. *)
Theorem C150_assignment : forall title ts, ~ In Other ts ->
  (exists l, obtainJsonConstraints (Doc (Some title) (Some ts)) = Done (jwords title, l) /\ assigned (jwords title) 0 (pairs_of ts) l) \/
  (obtainJsonConstraints (Doc (Some title) (Some ts)) = Undef /\ exists p t, In (p, t) (pairs_of ts) /\ cut_off (jwords title) p).
Proof.
  intros title ts N. assert (O : Forall is_obj ts). { apply Forall_forall. intros [a b|] I; cbn; auto. }
  generalize (doc_run (Some title) ts O). destruct (obtainJsonConstraints _) as [| |[s l]]; [right; auto|contradiction|].
  intros [-> A]. left. exists l. auto.
Qed.
(** the assignment is a function of the sentence and the pairs *)
Theorem C150_assignment_unique : forall sent from ps l1 l2, assigned sent from ps l1 -> assigned sent from ps l2 -> l1 = l2.
Proof.
  intros sent from ps l1 l2 A. revert l2. induction A as [from|from p t r k l LK O F A IH|from p t r F]; intros l2 B.
  - inversion B; auto.
  - inversion B as [|? ? ? ? k' l' LK' O' F' B'|? ? ? ? F']; subst.
    + assert (k = k') as ->; [|f_equal; auto]. destruct (lt_eq_lt_dec k k') as [[X|X]|X]; auto; exfalso; [apply (F' k)|apply (F k')]; auto; lia.
    + exfalso. eapply F'; eauto.
  - inversion B as [|? ? ? ? k' l' LK' O' F' B'|]; subst; auto. exfalso. eapply F; eauto.
Qed.
(** whatever the document, the constraints are what the decoder requires (C81), and each one covers the words of a tag and carries its translation *)
Theorem C150_constraints_good : forall i sent l, obtainJsonConstraints i = Done (sent, l) ->
  good_constraints (length sent) l /\ StronglySorted (fun a b => snd (fst a) < fst (fst b)) l /\
  forall a b t, In ((a, b), t) l -> exists title ts, i = Doc title (Some ts) /\ In (firstn (b - (a - 1)) (skipn (a - 1) sent), t) (pairs_of ts).
Proof.
  assert (E0 : forall sent l, @Done (list str * list (nat * nat * list str)) (sent, []) = Done (sent, l) ->
    good_constraints (length sent) l /\ StronglySorted (fun a b : nat * nat * list str => snd (fst a) < fst (fst b)) l /\ l = []).
  { intros sent l E. injection E as <-. split; [|split; [constructor|auto]]. split; [split; constructor|constructor]. }
  intros i sent l E. destruct i as [|raw|title [ts|]].
  - injection E as <- <-. destruct (E0 [] [] eq_refl) as (A & B & _). split; auto. split; auto. intros ? ? ? [].
  - cbn [obtainJsonConstraints] in E. rewrite s2v_jwords in E. injection E as <- <-. destruct (E0 (jwords raw) [] eq_refl) as (A & B & _). split; auto. split; auto. intros ? ? ? [].
  - assert (D : In Other ts \/ Forall is_obj ts).
    { clear. induction ts as [|[a b|] ts [IH|IH]]; auto; [now left; right|right; constructor; cbn; auto|now left; left|now left; left]. }
    destruct D as [I|O].
    + exfalso. cbn [obtainJsonConstraints] in E. rewrite (read_tags_throws ts [] I) in E. destruct title; [rewrite s2v_jwords in E|]; discriminate.
    + generalize (doc_run title ts O). rewrite E. intros [-> A].
      destruct (assigned_ordered _ _ _ _ A (pairs_good ts)) as [F S]. split; [|split; auto].
      * apply ordered_good; auto. eapply Forall_impl; [|exact F]. cbn beta. intros a (X1 & X2 & X3 & X4 & _). repeat split; auto; lia.
      * intros a b t I. exists title, ts. split; auto. rewrite Forall_forall in F. apply F in I. apply I.
  - destruct title; cbn [obtainJsonConstraints] in E; [rewrite s2v_jwords in E|]; cbn in E; injection E as <- <-;
      [destruct (E0 (jwords s) [] eq_refl) as (A & B & _)|destruct (E0 [] [] eq_refl) as (A & B & _)]; split; auto; split; auto; intros ? ? ? [].
Qed.
(** text that is no JSON object is the sentence itself, with nothing constrained; a document without tags gives the words of its title *)
Theorem C150_plain : forall raw, obtainJsonConstraints (NotJson raw) = Done (jwords raw, []) /\
  obtainJsonConstraints (Doc (Some raw) None) = Done (jwords raw, []) /\ obtainJsonConstraints (Doc (Some raw) (Some [])) = Done (jwords raw, []).
Proof.
  intro raw. cbn [obtainJsonConstraints]. rewrite s2v_jwords. repeat split. cbn [of_opt bind read_tags]. unfold addTranslations. cbn.
  destruct (jwords raw); reflexivity.
Qed.
(** C151 : phrases given in the order of the sentence and without overlapping are all constrained, each to its own translation *)
Theorem C151_in_order_complete : forall title ts, ~ In Other ts -> in_order (jwords title) (map fst (pairs_of ts)) ->
  exists l, obtainJsonConstraints (Doc (Some title) (Some ts)) = Done (jwords title, l) /\ assigned (jwords title) 0 (pairs_of ts) l /\
            map snd l = map snd (pairs_of ts).
Proof. intros title ts N I. apply (doc_complete (Some title) ts); auto. apply Forall_forall. intros [a b|] X; cbn; auto. Qed.
(** and conversely: if every tag got its constraint, the phrases occur in this order without overlapping *)
Theorem C151_only_in_order : forall title ts l, obtainJsonConstraints (Doc (Some title) (Some ts)) = Done (jwords title, l) ->
  length l = length (pairs_of ts) -> in_order (jwords title) (map fst (pairs_of ts)).
Proof.
  intros title ts l E L.
  assert (D : In Other ts \/ Forall is_obj ts).
  { clear. induction ts as [|[a b|] ts [IH|IH]]; auto; [now left; right|right; constructor; cbn; auto|now left; left|now left; left]. }
  destruct D as [I|O].
  { exfalso. cbn [obtainJsonConstraints] in E. rewrite (read_tags_throws ts [] I), s2v_jwords in E. discriminate. }
  generalize (doc_run (Some title) ts O). rewrite E. intros [_ A]. clear E O.
  change (jwords title) with (skipn 0 (jwords title)). cbn [title_words] in A. revert A L. generalize (pairs_of ts) as ps, 0. intros ps n A L.
  induction A as [from|from p t r k l LK O F A IH|from p t r F]; cbn in *; [exact I| |discriminate].
  assert (OL := occurs_le _ _ _ O). apply occurs_skipn in O; [|lia]. destruct O as [rest O].
  exists (firstn (k - from) (skipn from (jwords title))), (skipn (k + length p) (jwords title)). split; [|apply IH; lia].
  rewrite skipn_add, O, skipn_app, skipn_all, Nat.sub_diag. cbn [skipn app].
  rewrite <- O. replace k with (from + (k - from)) at 2 by lia. rewrite skipn_add. symmetry. apply firstn_skipn.
Qed.
(** finding: a phrase that starts at the end of the sentence and has one word too many makes the comparison read past the end of the words *)
Theorem C151_over_the_end_refuted : exists title ts, ~ In Other ts /\ obtainJsonConstraints (Doc (Some title) (Some ts)) = Undef.
Proof. exists (T "la casa"), [Tag (Some (T "casa verde")) (Some (T "green house"))]. split; [intros [E|[]]; discriminate|vm_compute; reflexivity]. Qed.
(** finding: one tag whose phrase is not in the sentence (or not after the tag before it) drops every tag that follows it *)
Theorem C151_lost_tag_refuted : exists title ts, ~ In Other ts /\ pairs_of ts <> [] /\
  (exists p t k, In (p, t) (pairs_of ts) /\ occurs_at (jwords title) p k) /\ obtainJsonConstraints (Doc (Some title) (Some ts)) = Done (jwords title, []).
Proof.
  exists (T "la casa verde"), [Tag (Some (T "perro")) (Some (T "dog")); Tag (Some (T "casa")) (Some (T "house"))].
  split; [intros [E|[E|[]]]; discriminate|]. split; [vm_compute; discriminate|]. split; [|vm_compute; reflexivity].
  exists [T "casa"], [T "house"], 1. split; [right; left; reflexivity|]. exists [T "la"], [T "verde"]. split; vm_compute; reflexivity.
Qed.
(** finding: an element of the array that is no object makes the whole request fail with an exception, whatever the rest of the document (a tag with a missing field is only skipped) *)
Theorem C151_other_element_refuted : forall title ts, In Other ts -> obtainJsonConstraints (Doc title (Some ts)) = Throws.
Proof.
  intros title ts I. cbn [obtainJsonConstraints]. rewrite (read_tags_throws ts [] I). destruct title; [now rewrite s2v_jwords|reflexivity].
Qed.
Example C150_nonvacuous :
  obtainJsonConstraints (Doc (Some (T "la casa verde y la casa")) (Some [Tag (Some (T "casa")) (Some (T "house")); Tag (Some (T "  ")) (Some (T "x"));
    Tag None (Some (T "z")); Tag (Some (T "la casa")) (Some (T "the house"))])) =
  Done ([T "la"; T "casa"; T "verde"; T "y"; T "la"; T "casa"], [((2, 2), [T "house"]); ((5, 6), [T "the"; T "house"])]).
Proof. vm_compute; reflexivity. Qed.
Example C151_nonvacuous :
  in_order (jwords (T "la casa verde")) (map fst (pairs_of [Tag (Some (T "la")) (Some (T "the")); Tag (Some (T "verde")) (Some (T "green"))])).
Proof. exists [], [T "casa"; T "verde"]. split; [vm_compute; reflexivity|]. exists [T "casa"], []. split; [vm_compute; reflexivity|exact I]. Qed.
Print Assumptions C150_assignment.
Print Assumptions C150_assignment_unique.
Print Assumptions C150_constraints_good.
Print Assumptions C150_plain.
Print Assumptions C151_in_order_complete.
Print Assumptions C151_only_in_order.
Print Assumptions C151_over_the_end_refuted.
Print Assumptions C151_lost_tag_refuted.
Print Assumptions C151_other_element_refuted.
