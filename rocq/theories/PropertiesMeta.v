(** Annotated source sentences: C82. *)
From Coq Require Import Ascii String Arith List Bool Lia Sorted.
From Verif Require Import TextSpec MetaModel MetaSpec MetaProofs DecSpec.
Import ListNotations.
Open Scope nat_scope.

(** C82 : an annotated sentence is read back as its words and, for each annotated phrase, the positions of its words with the translation given *)
Theorem C82_annotations_read_back : forall is, is <> [] -> Forall good_item is ->
  obtainTransConstraints (annotated is) = Some (sentence is, marks 0 is).
Proof. exact meta_roundtrip. Qed.
(** text without the tag character is just its words *)
Theorem C82_plain_text : forall raw, ~ In "<"%char raw -> words blank raw <> [] -> obtainTransConstraints raw = Some (words blank raw, []).
Proof. exact meta_plain. Qed.
(** whatever the input, the constraints found are what the decoder requires (C81): inside the sentence, disjoint, in order, with a translation *)
Theorem C82_constraints_good : forall raw sent m, obtainTransConstraints raw = Some (sent, m) ->
  good_constraints (length sent) m /\ StronglySorted (fun a b => snd (fst a) < fst (fst b)) m.
Proof.
  intros raw sent m E. destruct (meta_ordered raw sent m E) as [F S]. split; auto. split.
  - split.
    + apply Forall_map. eapply Forall_impl; [|exact F]. cbn. intros a; tauto.
    + clear E. induction S as [|a m S IH FA]; cbn; constructor.
      * apply Forall_map. inversion F; subst. rewrite Forall_forall in *. intros b I j [X Y]. specialize (FA b I). destruct X as [_ X]; destruct Y as [Y _]. exact (Nat.lt_irrefl _ (Nat.le_lt_trans _ _ _ Y (Nat.le_lt_trans _ _ _ X FA))).
      * inversion F; auto.
  - eapply Forall_impl; [|exact F]. cbn. tauto.
Qed.
(** any sentence with a word is handled, however malformed its annotations *)
Theorem C82_never_fails : forall raw, words blank raw <> [] -> exists r, obtainTransConstraints raw = Some r.
Proof. exact meta_total. Qed.
(** finding: a non-empty sentence made of blanks only makes the parser read the first element of an empty vector *)
Theorem C82_blank_sentence_refuted : forall raw, raw <> [] -> (forall c, In c raw -> blank c = true) -> obtainTransConstraints raw = None.
Proof. exact meta_blank. Qed.
Example C82_nonvacuous :
  let is := [Word (T "the"); Phrase [T "big"; T "house"] [T "casa"; T "grande"]; Word (T "x>y")] in
  Forall good_item is /\ annotated is = T "the <phr_pair_annot><src_segm>big house</src_segm><trg_segm>casa grande</trg_segm></phr_pair_annot> x>y" /\
  obtainTransConstraints (annotated is) = Some ([T "the"; T "big"; T "house"; T "x>y"], [((2, 3), [T "casa"; T "grande"])]) /\
  obtainTransConstraints (T "a <src_segm> b") = Some ([T "a"; T "<src_segm>"; T "b"], []).
Proof.
  cbv zeta. split; [|split; [reflexivity|split; reflexivity]].
  assert (P : forall s, forallb (fun c => negb (blank c) && negb (Ascii.eqb c "<"%char)) s = true -> s <> [] -> plain s).
  { intros s H N. split; auto. intros c I. rewrite forallb_forall in H. specialize (H c I). apply andb_true_iff in H. destruct H as [A B].
    split; [now apply negb_true_iff in A|]. destruct (Ascii.eqb_spec c "<"%char); [discriminate|auto]. }
  assert (Q : forall l, forallb (fun s => forallb (fun c => negb (blank c) && negb (Ascii.eqb c "<"%char)) s && nonempty s) l = true -> Forall plain l).
  { intros l H. apply Forall_forall. intros s I. rewrite forallb_forall in H. specialize (H s I). apply andb_true_iff in H. destruct H as [A B].
    apply P; auto. intro; subst; discriminate. }
  constructor; [apply P; [reflexivity|discriminate]|]. constructor; [repeat split; try discriminate; apply Q; reflexivity|].
  constructor; [apply P; [reflexivity|discriminate]|constructor].
Qed.
Print Assumptions C82_annotations_read_back. Print Assumptions C82_constraints_good. Print Assumptions C82_never_fails.
