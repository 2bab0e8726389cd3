(** C92, C93: word-level prefix edit distance and correction of a sentence given a prefix typed by the user. *)
From Coq Require Import Ascii String Arith ZArith List Bool Lia.
From Verif Require Import EditDistSpec EditDistModel TextSpec TextModel EcSpec EcModel EcProofs.
Import ListNotations.
Open Scope Z_scope.

(** [typed p0 l b]: the user has typed the words [p0] and the word [l], followed by a blank iff [b]; [clean w]: [w] is
    not empty and has no blank.  With the prefix-deletion operation the distance is the cheapest way of turning some initial
    part of the sentence into the typed words, and the operations returned are such a way. *)
Theorem C92_prefix_distance_is_cheapest : forall (hc ic sc dc : Z) (x p0 : list str) (l : str) (b : bool),
  0 < dc -> clean l -> (forall w, In w p0 -> clean w) -> (forall w, In w x -> w <> []) ->
  exists d ops ch, wEditDistPrefixOps hc ic sc dc true x (typed p0 l b) = Some (d, (ops, ch)) /\
    wcheapest_prefix hc ic sc dc (negb b) x (p0 ++ [l]) d /\
    exists x' r, x = x' ++ r /\ wscript hc ic sc dc (negb b) ops x' (p0 ++ [l]) d.
Proof.
  intros hc ic sc dc x p0 l b DC CL CP XN.
  destruct (typed_ops hc ic sc dc DC true x p0 l b CL CP XN) as (d & ops & ch & x' & r & E & Ex & _ & SC & LB).
  exists d, ops, ch. split; [exact E|]. split; [split; [eauto|]|eauto]. intros x1 r1 o c E1 H. apply (LB x1 r1 o c E1); auto. discriminate.
Qed.
Print Assumptions C92_prefix_distance_is_cheapest.

Theorem C92_without_prefix_deletion : forall (hc ic sc dc : Z) (x p0 : list str) (l : str) (b : bool),
  0 < dc -> clean l -> (forall w, In w p0 -> clean w) -> (forall w, In w x -> w <> []) ->
  exists d ops ch, wEditDistPrefixOps hc ic sc dc false x (typed p0 l b) = Some (d, (ops, ch)) /\
    wcheapest hc ic sc dc (negb b) x (p0 ++ [l]) d /\ wscript hc ic sc dc (negb b) ops x (p0 ++ [l]) d.
Proof.
  intros hc ic sc dc x p0 l b DC CL CP XN.
  destruct (typed_ops hc ic sc dc DC false x p0 l b CL CP XN) as (d & ops & ch & x' & r & E & Ex & K & SC & LB).
  rewrite (K eq_refl), app_nil_r in Ex. subst x'.
  exists d, ops, ch. split; [exact E|]. split; [split; [eauto|]|exact SC].
  intros o c H. apply (LB x [] o c); auto; [now rewrite app_nil_r|intro; reflexivity].
Qed.
Print Assumptions C92_without_prefix_deletion.

(** word costs are cached under (word, word) and (word+" pref", word); for words without blanks the cache never mixes them up *)
Theorem C92_cost_cache : forall (hc ic sc dc : Z) (x y : str) (m : scmap), ~ In SP x -> scm_ok hc ic sc dc m ->
  (fst (cachedSubstCost hc ic sc dc x y m) = substitutionCost hc ic sc dc x y /\ scm_ok hc ic sc dc (snd (cachedSubstCost hc ic sc dc x y m))) /\
  (fst (cachedPrefSubstCost hc ic sc dc x y m) = prefSubstitutionCost hc ic sc dc x y /\ scm_ok hc ic sc dc (snd (cachedPrefSubstCost hc ic sc dc x y m))).
Proof. intros. split; [apply cache_subst|apply cache_psubst]; auto. Qed.
Print Assumptions C92_cost_cache.
(** the empty cache is consistent *)
Example C92_empty_cache : forall hc ic sc dc, scm_ok hc ic sc dc [].
Proof. intros hc ic sc dc k y v H. discriminate. Qed.

Definition s2s (s : string) : str := list_ascii_of_string s.

(** a word containing a blank makes it return the cost of another pair *)
Theorem C92_cost_cache_blank_refuted : exists x y z m, m = snd (cachedPrefSubstCost 0 1 1 1 x y []) /\
  fst (cachedSubstCost 0 1 1 1 z y m) <> substitutionCost 0 1 1 1 z y.
Proof. exists (s2s "a"), (s2s "a"), (s2s "a pref"). eexists. split; [reflexivity|]. vm_compute. discriminate. Qed.
Print Assumptions C92_cost_cache_blank_refuted.

(** before anything is typed, every sentence is charged for deleting all its words, and its "correction" is empty *)
Theorem C92_nothing_typed_refuted : exists x, correct_given_prefix 0 1 1 1 true x [] = Some (3, []) /\ x = [s2s "abc"].
Proof. eexists. split; [|reflexivity]. reflexivity. Qed.
Print Assumptions C92_nothing_typed_refuted.

(** an operation reported as a hit does not mean that the word was right: the distance is not 0 although all are hits *)
Theorem C92_hit_means_equal_refuted : exists x p ch, wEditDistPrefixOps 0 1 1 1 true x p = Some (1, ([HIT_OP; HIT_OP], ch)).
Proof. exists [s2s "abc"; s2s "d"], [s2s "ab"; s2s "d"]. eexists. vm_compute. reflexivity. Qed.
Print Assumptions C92_hit_means_equal_refuted.

Example C92_nonvacuous :
  (clean (s2s "hou") /\ clean (s2s "the")) /\
  wEditDistPrefixOps 0 1 1 1 true [s2s "teh"; s2s "big"; s2s "hause"; s2s "is"] (typed [s2s "the"] (s2s "hou") false) =
    Some (5, ([SUBST_OP; SUBST_OP], [])).
Proof. split; [split; split; try discriminate; vm_compute; intuition discriminate|vm_compute; reflexivity]. Qed.

(** C93: whatever the sentence, its correction begins with the words the user typed: all finished words are literally there and
    an unfinished last word is continued; the remainder is an unchanged final part of the sentence (nothing without the
    prefix-deletion operation); and the part of the sentence that was replaced is one that the cheapest script turns into the
    typed words. *)
Theorem C93_correction_extends_prefix : forall (hc ic sc dc : Z) (useDel : bool) (x p0 : list str) (l : str) (b : bool),
  0 < dc -> clean l -> (forall w, In w p0 -> clean w) -> (forall w, In w x -> w <> []) ->
  exists d r, correct_given_prefix hc ic sc dc useDel x (typed p0 l b) = Some (d, r) /\
    extends (negb b) r (p0 ++ [l]) /\
    exists x' rest ops, x = x' ++ rest /\ (useDel = false -> rest = []) /\ skipn (length (p0 ++ [l])) r = rest /\
      wscript hc ic sc dc (negb b) ops x' (p0 ++ [l]) d.
Proof.
  intros hc ic sc dc useDel x p0 l b DC CL CP XN.
  destruct (typed_correct hc ic sc dc DC useDel x p0 l b CL CP XN) as (d & t & x' & r & E & Ex & K & T & ops & SC).
  exists d, (p0 ++ (l ++ t) :: r). split; [exact E|]. split.
  - exists p0, l, t, r. repeat split; auto. intro H. apply T. now apply negb_false_iff in H.
  - exists x', r, ops. repeat split; auto. rewrite app_length. cbn [length].
    replace (p0 ++ (l ++ t) :: r) with ((p0 ++ [l ++ t]) ++ r) by (rewrite <- app_assoc; reflexivity).
    rewrite skipn_app, app_length. cbn [length]. rewrite Nat.sub_diag. rewrite skipn_all2 by (rewrite app_length; cbn [length]; lia). reflexivity.
Qed.
Print Assumptions C93_correction_extends_prefix.

(** a blank after an inner word makes an insertion put the last word in its place *)
Theorem C93_inner_blank_refuted : exists p r, correct_given_prefix 0 1 1 1 true [] p = Some (3, r) /\
  p = [s2s "a "; s2s "b"] /\ r = [s2s "b"; s2s "b"].
Proof. do 2 eexists. split; [|split; reflexivity]. vm_compute. reflexivity. Qed.
Print Assumptions C93_inner_blank_refuted.

Example C93_nonvacuous :
  correct_given_prefix 0 1 1 1 true [s2s "teh"; s2s "house"; s2s "is"] (typed [s2s "the"] (s2s "hou") false) =
    Some (2, [s2s "the"; s2s "house"; s2s "is"]) /\
  correct_given_prefix 0 1 1 1 true [s2s "teh"; s2s "hause"; s2s "is"] (typed [s2s "the"] (s2s "hou") true) =
    Some (5, [s2s "the"; s2s "hou"; s2s "is"]).
Proof. split; vm_compute; reflexivity. Qed.
