(** Proofs about the word predictor. *)
From Coq Require Import Ascii String Arith List Bool Lia.
From Verif Require Import TextSpec TrieSpec TrieModel TrieProofs.
Import ListNotations.

Definition sdec : forall a b : str, {a = b} + {a <> b} := list_eq_dec ascii_dec.
Notation fnd := (find ascii_dec).
Notation tms := (times sdec).

(** ** counting *)
(** the trie counts the words [ws] *)
Definition counts (t : ctrie) (ws : list str) : Prop := wf_root t /\ first_data 0 t = 0 /\
  forall q, q <> [] -> match fnd t q with Some n => n = tms q ws | None => tms q ws = 0 end.
Lemma times_snoc : forall ws w q, tms q (ws ++ [w]) = tms q ws + (if sdec w q then 1 else 0).
Proof. intros. unfold times. rewrite count_occ_app. cbn. destruct (sdec w q); lia. Qed.
Lemma first_set : forall (t : ctrie) q d, q <> [] -> first_data 0 (set_data ascii_dec t q d) = first_data 0 t.
Proof. intros [s|t] [|k r] d N; auto; congruence. Qed.
Lemma first_insert : forall (t : ctrie) q d, first_data 0 t = 0 -> first_data 0 (insert ascii_dec 0 t q d) = 0.
Proof. intros [s|t] [|k r] d H; auto. cbn. destruct r; reflexivity. Qed.
Lemma addWord_counts : forall t ws w, w <> [] -> counts t ws -> counts (addWord t w) (ws ++ [w]).
Proof.
  intros t ws w NW (W & F & C). unfold addWord. pose proof (C w NW) as CW. destruct (fnd t w) as [c|] eqn:FW.
  - split; [now apply set_data_wf|]. split; [now rewrite first_set|]. intros q NQ. rewrite set_find, times_snoc by auto.
    pose proof (C q NQ) as CQ. destruct (qeq ascii_dec q w) as [->|N].
    + rewrite FW. destruct (sdec w w); [lia|congruence].
    + destruct (sdec w q); [congruence|]. destruct (fnd t q); lia.
  - split; [now apply insert_wf|]. split; [now apply first_insert|]. intros q NQ. rewrite insert_find, times_snoc by auto.
    rewrite upd_def by exact F. pose proof (C q NQ) as CQ. unfold upd. destruct (qeq ascii_dec q w) as [->|N].
    + destruct (sdec w w); [lia|congruence].
    + destruct (sdec w q); [congruence|]. destruct (fnd t q); [lia|]. destruct (pfx ascii_dec q w); lia.
Qed.
Lemma addSentenceAux_counts : forall ws t ws0, Forall (fun w => w <> []) ws -> counts t ws0 -> counts (addSentenceAux t ws) (ws0 ++ ws).
Proof.
  unfold addSentenceAux. induction ws as [|w ws IH]; intros t ws0 F C; cbn [fold_left]; [now rewrite app_nil_r|].
  inversion F; subst. change (w :: ws) with ([w] ++ ws). rewrite app_assoc. apply IH; auto. now apply addWord_counts.
Qed.
Lemma sents_counts : forall ss t ws0, Forall (Forall (fun w => w <> [])) ss -> counts t ws0 -> counts (fold_left addSentenceAux ss t) (ws0 ++ concat ss).
Proof.
  induction ss as [|s ss IH]; intros t ws0 F C; cbn [fold_left concat]; [now rewrite app_nil_r|]. inversion F; subst.
  rewrite app_assoc. apply IH; auto. now apply addSentenceAux_counts.
Qed.
Lemma new_counts : counts (new_trie 0) [].
Proof. split; [exact I|]. split; [reflexivity|]. intros [|k r] N; [congruence|]. reflexivity. Qed.

(** ** blocks of sentences *)
Lemma add_buf : forall sents R buf t, 0 < R -> length buf < R ->
  let p := fold_left addSentence sents {| p_trie := t; p_retain := R; p_buf := buf |} in
  p_retain p = R /\ length (p_buf p) < R /\
  exists n, n * R = length (buf ++ sents) - length (p_buf p) /\ p_trie p = fold_left addSentenceAux (firstn (n * R) (buf ++ sents)) t /\
    p_buf p = skipn (n * R) (buf ++ sents).
Proof.
  induction sents as [|s sents IH]; intros R buf t HR HB p; subst p; cbn [fold_left].
  - cbn [p_retain p_buf p_trie]. split; auto. split; auto. exists 0. rewrite app_nil_r. split; [lia|]. split; reflexivity.
  - unfold addSentence at 2 4 6 8 10. cbn [p_retain p_buf p_trie]. rewrite (proj2 (Nat.ltb_lt 0 R)) by auto. rewrite app_length. cbn [length].
    destruct (length buf + 1 =? R) eqn:E.
    + apply Nat.eqb_eq in E. destruct (IH R [] (fold_left addSentenceAux (buf ++ [s]) t) HR) as (A & B & n & N & T & U); [cbn; lia|].
      split; [exact A|]. split; [exact B|]. exists (S n). cbn [app] in N, T, U.
      assert (LB : length (buf ++ [s]) = R) by (rewrite app_length; cbn; lia).
      replace (buf ++ s :: sents) with ((buf ++ [s]) ++ sents) by (rewrite <- app_assoc; reflexivity).
      split; [|split].
      * rewrite app_length, LB. cbn [Nat.mul]. rewrite N.
        assert (length (p_buf (fold_left addSentence sents {| p_trie := fold_left addSentenceAux (buf ++ [s]) t; p_retain := R; p_buf := [] |})) <= length sents) by (rewrite U, skipn_length; lia).
        lia.
      * rewrite T. rewrite (firstn_app (S n * R)), LB. replace (S n * R - R) with (n * R) by (cbn [Nat.mul]; lia).
        rewrite (firstn_all2 (buf ++ [s])) by (rewrite LB; cbn [Nat.mul]; lia). rewrite <- fold_left_app. reflexivity.
      * rewrite U. rewrite (skipn_app (S n * R)), LB. replace (S n * R - R) with (n * R) by (cbn [Nat.mul]; lia).
        rewrite (skipn_all2 (buf ++ [s])) by (rewrite LB; cbn [Nat.mul]; lia). reflexivity.
    + apply Nat.eqb_neq in E. destruct (IH R (buf ++ [s]) t HR) as (A & B & n & N & T & U); [rewrite app_length; cbn; lia|].
      split; [exact A|]. split; [exact B|]. exists n. rewrite <- app_assoc in N, T, U. auto.
Qed.
Theorem retained : forall sents R t, let p := fold_left addSentence sents {| p_trie := t; p_retain := R; p_buf := [] |} in
  p_trie p = fold_left addSentenceAux (complete_blocks R sents) t.
Proof.
  intros sents R t p. subst p. unfold complete_blocks. destruct R as [|R].
  - cbn. induction sents as [|s sents IH]; auto.
  - destruct (add_buf sents (S R) [] t) as (A & B & n & N & T & U); [lia|cbn; lia|]. cbn [app] in *. rewrite T. f_equal. f_equal.
    rewrite Nat.mul_comm. f_equal. apply (Nat.div_unique (length sents) (S R) n (length (p_buf (fold_left addSentence sents {| p_trie := t; p_retain := S R; p_buf := [] |})))); [exact B|].
    assert (length (p_buf (fold_left addSentence sents {| p_trie := t; p_retain := S R; p_buf := [] |})) <= length sents) by (rewrite U, skipn_length; lia). lia.
Qed.
Lemma retain_1 : forall sents t, let p := fold_left addSentence sents {| p_trie := t; p_retain := 1; p_buf := [] |} in
  p_trie p = fold_left addSentenceAux sents t /\ p_retain p = 1 /\ p_buf p = [].
Proof.
  intros sents t p. subst p. split; [|destruct (add_buf sents 1 [] t) as (A & B & _); [lia|cbn; lia|split; [exact A|]]].
  - rewrite retained. unfold complete_blocks. rewrite Nat.div_1_r, Nat.mul_1_l, firstn_all. reflexivity.
  - destruct (p_buf _); auto. cbn in B. lia.
Qed.

(** ** the list of suffixes *)
Lemma sl_set_ok : forall l c s, desc l -> desc (sl_set c s l) /\
  (forall c' s', In (c', s') (sl_set c s l) -> (c' = c /\ s' = s) \/ (c' <> c /\ In (c', s') l)) /\
  In (c, s) (sl_set c s l) /\ (forall c' s', In (c', s') l -> c' <> c -> In (c', s') (sl_set c s l)).
Proof.
  induction l as [|[c0 s0] l IH]; intros c s Dl; cbn [sl_set].
  - split; [constructor; [constructor|intros ? ? []]|]. split; [|split; [now left|intros ? ? []]]. intros c' s' [H|[]]. left. injection H; auto.
  - inversion Dl as [|? ? ? Dl' LT]; subst. destruct (c0 <? c) eqn:E1; [apply Nat.ltb_lt in E1|apply Nat.ltb_ge in E1; destruct (c0 =? c) eqn:E2; [apply Nat.eqb_eq in E2; subst c0|apply Nat.eqb_neq in E2]].
    + split; [constructor; auto; intros c' s' [H|H]; [injection H as <- <-; auto|apply LT in H; lia]|]. split; [|split; [now left|intros; now right]].
      intros c' s' [H|H]; [left; injection H; auto|]. right. split; auto. destruct H as [H|H]; [injection H as <- <-; lia|apply LT in H; lia].
    + split; [constructor; auto|]. split; [|split; [now left|]].
      * intros c' s' [H|H]; [left; injection H; auto|]. right. split; [apply LT in H; lia|now right].
      * intros c' s' [H|H] N; [injection H as <- <-; congruence|now right].
    + destruct (IH c s Dl') as (A & B & C & D). split; [constructor; auto|].
      { intros c' s' H. apply B in H. destruct H as [[-> _]|[_ H]]; [lia|now apply LT in H]. }
      split; [|split; [now right|]].
      * intros c' s' [H|H]; [injection H as <- <-; right; split; [auto|now left]|]. apply B in H. destruct H as [H|[N H]]; auto. right. split; auto. now right.
      * intros c' s' [H|H] N; [left; exact H|right; auto].
Qed.
(** items of the wanted subtree first (heads equal to the last letter), then the others *)
Definition head_is (x : ascii) (it : str * nat) : Prop := exists q, fst it = x :: q.
Definition head_not (x : ascii) (it : str * nat) : Prop := exists y q, fst it = y :: q /\ y <> x.
Lemma sl_loop_others : forall input x its out, input <> [] -> nth (length input - 1) input "000"%char = x -> Forall (head_not x) its -> sl_loop input its out = out.
Proof.
  intros input x its out N E. revert out. induction its as [|[f n] its IH]; intros out F; auto. cbn [sl_loop]. inversion F as [|? ? (y & q & EQ & NE) F']; subst.
  cbn in EQ. subst f. destruct (0 <? n); auto. assert (0 <? length input = true) by (apply Nat.ltb_lt; destruct input; [congruence|cbn; lia]). rewrite H. cbn [nth].
  rewrite (proj2 (Ascii.eqb_neq _ _) NE). reflexivity.
Qed.
Lemma sl_loop_mine : forall input x its1 its2 out, input <> [] -> nth (length input - 1) input "000"%char = x -> Forall (head_is x) its1 ->
  sl_loop input (its1 ++ its2) out = sl_loop input its2 (fold_left (fun o it => if 0 <? snd it then sl_set (snd it) (tl (fst it)) o else o) its1 out).
Proof.
  intros input x its1 its2 out N E. revert out. induction its1 as [|[f n] its IH]; intros out F; auto. cbn [app sl_loop fold_left fst snd].
  inversion F as [|? ? (q & EQ) F']; subst. cbn in EQ. subst f. destruct (0 <? n); [|auto]. cbn [nth]. rewrite Ascii.eqb_refl, andb_false_r. auto.
Qed.
Lemma fold_set_ok : forall (its : list (str * nat)) out, desc out ->
  let o := fold_left (fun o it => if 0 <? snd it then sl_set (snd it) (tl (fst it)) o else o) its out in desc o /\
  (forall n s, In (n, s) o -> In (n, s) out \/ exists f, In (f, n) its /\ s = tl f /\ 0 < n) /\
  (forall f n, In (f, n) its -> 0 < n -> exists s, In (n, s) o) /\ (forall n s, In (n, s) out -> exists s', In (n, s') o).
Proof.
  induction its as [|[f n] its IH]; intros out Dl o; subst o; cbn [fold_left fst snd].
  - split; auto. split; auto. split; [intros ? ? []|eauto].
  - assert (D1 : desc (if 0 <? n then sl_set n (tl f) out else out)) by (destruct (0 <? n); auto; now apply sl_set_ok).
    destruct (IH _ D1) as (A & B & C & E). split; [exact A|]. destruct (sl_set_ok out n (tl f) Dl) as (_ & S2 & S3 & S4). split; [|split].
    + intros m s H. apply B in H. destruct H as [H|(f' & H & H2)]; [|right; exists f'; split; auto; now right].
      destruct (0 <? n) eqn:P; auto. apply S2 in H. destruct H as [[-> ->]|[_ H]]; auto. right. exists f. split; [now left|]. split; auto. now apply Nat.ltb_lt.
    + intros f' m [H|H] P; [|eauto]. injection H as -> ->. apply (E m (tl f')). rewrite (proj2 (Nat.ltb_lt 0 m) P). exact S3.
    + intros m s H. destruct (0 <? n) eqn:P; [|eauto]. destruct (Nat.eq_dec m n) as [->|NE]; [exact (E n (tl f) S3)|]. apply (E m s). now apply S4.
Qed.

(** the node of the input *)
Lemma node_last : forall (t : @tr ascii nat) k rest k0 d ch nx, node_at ascii_dec t k rest = TNode k0 d ch nx ->
  k0 = nth (length (k :: rest) - 1) (k :: rest) "000"%char /\ (wf t -> wf (TNode k0 d ch nx)) /\
  forall r, dat ascii_dec (TNode k0 d ch nx) k0 r = dat ascii_dec t k (rest ++ r).
Proof.
  induction t as [|k1 d1 ch1 IHc nx1 IHn]; intros k rest k0 d ch nx H; [discriminate|]. cbn [node_at] in H.
  destruct (ascii_dec k1 k) as [->|N].
  - destruct rest as [|k2 rest].
    + injection H as <- <- <- <-. split; [reflexivity|]. split; auto.
    + apply IHc in H. destruct H as (A & B & C). split; [|split].
      * rewrite A. cbn [length]. replace (S (S (length rest)) - 1) with (S (S (length rest) - 1)) by lia. reflexivity.
      * intros (_ & W & _). auto.
      * intros r. rewrite C. rewrite dat_node. destruct (ascii_dec k k); [reflexivity|congruence].
  - apply IHn in H. destruct H as (A & B & C). split; auto. split.
    + intros (_ & _ & W). auto.
    + intros r. rewrite C. rewrite dat_node. destruct (ascii_dec k1 k); [congruence|reflexivity].
Qed.
Lemma node_none : forall (t : @tr ascii nat) k rest, node_at ascii_dec t k rest = TNull -> forall r, dat ascii_dec t k (rest ++ r) = None.
Proof.
  induction t as [|k1 d1 ch1 IHc nx1 IHn]; intros k rest H r; [reflexivity|]. cbn [node_at] in H. rewrite dat_node. destruct (ascii_dec k1 k) as [->|N].
  - destruct rest as [|k2 rest]; [discriminate|]. cbn [app]. auto.
  - auto.
Qed.

Theorem suffix_list : forall p ws input, counts (p_trie p) ws -> input <> [] -> exists out, getSuffixList p input = Some out /\ desc out /\
  (forall n s, In (n, s) out -> n = tms (input ++ s) ws /\ 0 < n) /\
  (forall s, 0 < tms (input ++ s) ws -> exists s', In (tms (input ++ s) ws, s') out).
Proof.
  intros p ws input (W & _ & C) N. unfold getSuffixList. destruct input as [|k rest]; [congruence|]. cbn [getState].
  destruct (p_trie p) as [st|t] eqn:ET.
  - exists []. split; [reflexivity|]. split; [constructor|]. split; [intros ? ? []|]. intros s H. specialize (C ((k :: rest) ++ s)). cbn [app find] in C. cbn [app] in H. rewrite C in H; [lia|discriminate].
  - destruct W as [NT W]. destruct (node_at ascii_dec t k rest) as [|k0 d ch nx] eqn:EN.
    + exists []. split; [reflexivity|]. split; [constructor|]. split; [intros ? ? []|]. intros s H. specialize (C ((k :: rest) ++ s)). cbn [app] in C.
      rewrite find_dat, (node_none _ _ _ EN) in C. cbn [app] in H. rewrite C in H; [lia|discriminate].
    + destruct (node_last _ _ _ _ _ _ _ EN) as (L & WN & DN). specialize (WN W). pose proof WN as WN0. destruct WN as (W1 & W2 & W3).
      assert (WR : wf_root (RNode (TNode k0 d ch nx))) by (split; [discriminate|exact WN0]).
      rewrite (iterate_root (RNode (TNode k0 d ch nx)) WR). cbn [listing post app].
      change (@cons (list ascii * nat) ([k0], d) (post [] nx)) with ([([k0], d)] ++ post [] nx). rewrite app_assoc.
      set (mine := post [k0] ch ++ [([k0], d)]).
      assert (IM : forall q n, In (q, n) mine <-> exists r, q = k0 :: r /\ dat ascii_dec t k (rest ++ r) = Some n).
      { intros q n. unfold mine. rewrite in_app_iff, (post_in ascii_dec ch W2). split.
        - intros [(k2 & r & -> & H)|[H|[]]].
          + exists (k2 :: r). split; [reflexivity|]. rewrite <- DN, dat_node. destruct (ascii_dec k0 k0); [exact H|congruence].
          + injection H as <- <-. exists []. split; auto. rewrite <- DN, dat_node. destruct (ascii_dec k0 k0); [reflexivity|congruence].
        - intros (r & -> & H). rewrite <- DN, dat_node in H. destruct (ascii_dec k0 k0); [|congruence]. destruct r as [|k2 r].
          + right. left. congruence.
          + left. exists k2, r. auto. }
      assert (FM : Forall (head_is k0) mine).
      { apply Forall_forall. intros [q n] H. apply IM in H. destruct H as (r & -> & _). exists r. reflexivity. }
      assert (FN : Forall (head_not k0) (post [] nx)).
      { apply Forall_forall. intros [q n] H. apply (post_in ascii_dec nx W3) in H. destruct H as (k2 & r & -> & H). exists k2, r. split; [reflexivity|].
        intros ->. apply W1. eapply dat_sibs. exact H. }
      rewrite (sl_loop_mine (k :: rest) k0) by (auto; symmetry; exact L). rewrite (sl_loop_others (k :: rest) k0) by (auto; symmetry; exact L).
      destruct (fold_set_ok mine [] desc_nil) as (A & B & Q & _). eexists. split; [reflexivity|]. split; [exact A|]. split.
      * intros n s H. apply B in H. destruct H as [[]|(f & H & -> & P)]. split; auto. apply IM in H. destruct H as (r & -> & H). cbn [tl].
        specialize (C ((k :: rest) ++ r)). cbn [app] in C. rewrite find_dat, H in C. apply C. discriminate.
      * intros s H. specialize (C ((k :: rest) ++ s)). cbn [app] in C. rewrite find_dat in C. cbn [app] in *.
        destruct (dat ascii_dec t k (rest ++ s)) as [n|] eqn:DD; [|rewrite C in H; [lia|discriminate]].
        assert (n = tms (k :: rest ++ s) ws) by (apply C; discriminate). subst n. eapply Q; [|exact H]. apply IM. exists s. split; [reflexivity|exact DD].
Qed.
Theorem best_suffix : forall p ws input, counts (p_trie p) ws -> input <> [] -> exists n s, getBestSuffix p input = Some (n, s) /\
  (forall s', tms (input ++ s') ws <= n) /\ ((0 < n /\ n = tms (input ++ s) ws) \/ (n = 0 /\ s = [])).
Proof.
  intros p ws input C N. destruct (suffix_list p ws input C N) as (out & E & Dl & A & B). unfold getBestSuffix. rewrite E. destruct out as [|[n s] out].
  - exists 0, []. split; [reflexivity|]. split; [|right; auto]. intros s'. destruct (Nat.eq_0_gt_0_cases (tms (input ++ s') ws)) as [Z|Z]; [lia|].
    apply B in Z. destruct Z as [? []].
  - exists n, s. split; [reflexivity|]. destruct (A n s (or_introl eq_refl)) as [A1 A2]. split; [|left; auto].
    intros s'. destruct (Nat.eq_0_gt_0_cases (tms (input ++ s') ws)) as [Z|Z]; [lia|]. apply B in Z. destruct Z as [s2 [H|H]]; [injection H as <- _; lia|].
    inversion Dl as [|? ? ? _ LT]; subst. apply LT in H. lia.
Qed.
