(** Proofs about the text side of interactive translation. *)
From Coq Require Import Ascii String Arith List Bool Lia.
From Verif Require Import TextSpec TextModel TextProofs CatSpec CatModel.
Import ListNotations.

Definition isSP (c : ascii) : bool := Ascii.eqb c SP.
Lemma space_SP : space = SP. Proof. reflexivity. Qed.
Lemma sp_words_eq : forall s, sp_words s = words isSP s. Proof. reflexivity. Qed.

Lemma words_blank_sp : forall s, no_tab s -> words is_blank s = sp_words s.
Proof.
  intros s N. rewrite sp_words_eq. unfold words. f_equal. induction s as [|c s IH]; simpl; auto.
  assert (E : is_blank c = isSP c).
  { unfold is_blank, isSP. destruct (Ascii.eqb c TAB) eqn:E; [|apply orb_false_r].
    apply Ascii.eqb_eq in E. exfalso. apply N. left. now rewrite E. }
  rewrite E, IH; auto. intro. apply N. now right.
Qed.

(** a text is its leading blanks, its first word, and the rest *)
Lemma words_nil : forall s, sp_words s = [] -> forallb isSP s = true.
Proof.
  induction s as [|c s IH]; auto. intros H. rewrite sp_words_eq in H. simpl. destruct (isSP c) eqn:E.
  - rewrite words_sep in H by exact E. simpl. apply IH. exact H.
  - exfalso. unfold words in H. simpl in H. rewrite E in H. pose proof (segments_ne isSP s). destruct (segments isSP s); [congruence|discriminate].
Qed.
Lemma words_cons : forall s w r, sp_words s = w :: r -> exists b s', s = b ++ w ++ s' /\ forallb isSP b = true /\ w <> [] /\
  forallb (fun c => negb (isSP c)) w = true /\ (s' = [] \/ exists s'', s' = SP :: s'') /\ sp_words s' = r.
Proof.
  intros s w r H. destruct (span isSP s) as [b s1] eqn:E1. apply span_app in E1. destruct E1 as (E1 & B & F1).
  destruct (span (fun c => negb (isSP c)) s1) as [w1 s2] eqn:E2. apply span_app in E2. destruct E2 as (E2 & W & F2).
  rewrite sp_words_eq in H. rewrite E1, words_seps in H by exact B.
  destruct w1 as [|c w1].
  { simpl in E2. subst s2. destruct s1 as [|c s1]; [discriminate|]. rewrite F1 in F2. discriminate. }
  rewrite E2, words_token in H; [|discriminate|exact W|destruct s2 as [|c2 s2]; auto; apply negb_false_iff in F2; exact F2].
  assert (Hw : w = c :: w1) by congruence. assert (Hr : r = words isSP s2) by congruence. subst w r.
  exists b, s2. rewrite E1, E2. split; [reflexivity|]. split; auto. split; [discriminate|]. split; auto. split; [|reflexivity].
  destruct s2 as [|c2 s2]; [now left|]. right. exists s2. apply negb_false_iff in F2. apply Ascii.eqb_eq in F2. now rewrite F2.
Qed.
Lemma words_build : forall b w s', forallb isSP b = true -> w <> [] -> forallb (fun c => negb (isSP c)) w = true ->
  (s' = [] \/ exists s'', s' = SP :: s'') -> sp_words (b ++ w ++ s') = w :: sp_words s'.
Proof.
  intros b w s' B N W E. rewrite !sp_words_eq, words_seps by exact B. apply words_token; auto.
  destruct E as [-> |[s'' ->]]; auto.
Qed.

(** ** merging *)
Lemma span_sp : forall b s, forallb isSP b = true -> (match s with [] => True | c :: _ => isSP c = false end) ->
  span (fun x => Ascii.eqb x SP) (b ++ s) = (b, s).
Proof. intros b s B E. apply span_all; auto. Qed.

Lemma merge_nil : forall t out, merge_loop t [] out = out ++ t.
Proof. induction t as [|c t IH]; intros out; cbn [merge_loop]; auto. rewrite IH, <- app_assoc. reflexivity. Qed.

(** blanks of the translation are skipped while blanks of the prefix are copied *)
Lemma merge_blanks : forall b2 b t p out, forallb isSP b2 = true -> forallb isSP b = true ->
  p <> [] -> (match p with [] => True | c :: _ => isSP c = false end) ->
  (match t with [] => False | c :: _ => isSP c = false end) ->
  merge_loop (b2 ++ t) (b ++ p) out = merge_loop t p (out ++ b).
Proof.
  induction b2 as [|c b2 IH]; intros b t p out B2 B NP FP FT.
  - simpl. destruct t as [|d t]; [easy|]. destruct p as [|h p]; [easy|]. cbn [merge_loop].
    destruct b as [|x b].
    + simpl. simpl in FP. unfold isSP in FP. rewrite FP. simpl. rewrite !app_nil_r. reflexivity.
    + change ((x :: b) ++ h :: p) with (x :: (b ++ h :: p)). cbn [merge_loop].
      change (x :: (b ++ h :: p)) with ((x :: b) ++ h :: p). rewrite span_sp by auto. unfold isSP in FT. rewrite FT.
      simpl. unfold isSP in FP. rewrite FP. simpl. rewrite !app_nil_r. reflexivity.
  - simpl in B2. apply andb_true_iff in B2. destruct B2 as [C B2]. cbn [app merge_loop].
    destruct (b ++ p) as [|x y] eqn:E; [apply app_eq_nil in E; destruct E; congruence|]. rewrite <- E, span_sp by auto.
    unfold isSP in C. rewrite C. rewrite <- (app_nil_l p) at 1. rewrite IH; auto. rewrite app_nil_r. reflexivity.
Qed.
(** the characters of a common word are copied *)
Lemma merge_word : forall w t p out, forallb (fun c => negb (isSP c)) w = true ->
  merge_loop (w ++ t) (w ++ p) out = merge_loop t p (out ++ w).
Proof.
  induction w as [|c w IH]; intros t p out W; [simpl; now rewrite app_nil_r|].
  simpl in W. apply andb_true_iff in W. destruct W as [C W]. cbn [app merge_loop span].
  apply negb_true_iff in C. unfold isSP in C. rewrite C. simpl tl. rewrite app_nil_r, IH by auto.
  rewrite <- app_assoc. reflexivity.
Qed.
Lemma span_allsp : forall b, forallb isSP b = true -> span (fun x => Ascii.eqb x SP) b = (b, []).
Proof. intros b B. rewrite <- (app_nil_r b) at 1. apply span_all; auto. Qed.

Lemma ends_dec : forall b : str, forallb isSP b = true -> b <> [] -> ends_blank b.
Proof.
  intros b B N. destruct (exists_last N) as (u & x & ->). exists u. rewrite forallb_app in B. apply andb_true_iff in B.
  destruct B as [_ B]. simpl in B. rewrite andb_true_r in B. apply Ascii.eqb_eq in B. now rewrite B.
Qed.
Lemma ends_app : forall a b : str, b <> [] -> (ends_blank (a ++ b) <-> ends_blank b).
Proof.
  intros a b N. split; intros [u E].
  - destruct (exists_last N) as (v & x & ->). exists v. rewrite app_assoc in E. apply app_inj_tail in E. destruct E as [_ ->]. reflexivity.
  - exists (a ++ u). rewrite E, app_assoc. reflexivity.
Qed.

(** the last word of the prefix *)
Lemma merge_last : forall l q b' t', forallb isSP b' = true -> forallb (fun c => negb (isSP c)) q = true ->
  (t' = [] \/ exists t'', t' = SP :: t'') -> l <> [] -> forallb (fun c => negb (isSP c)) l = true -> forall out,
  exists s, merge_loop (q ++ t') b' out = out ++ b' ++ s /\
    sp_words (l ++ b' ++ s) = (match b', q with _ :: _, _ :: _ => [l; q] | _, _ => [l ++ q] end) ++ sp_words t'.
Proof.
  intros l q b' t' B Q E NL L out. destruct b' as [|x b'].
  - exists (q ++ t'). rewrite merge_nil. split; [reflexivity|]. simpl. rewrite app_assoc.
    change ((l ++ q) ++ t') with ([] ++ (l ++ q) ++ t'). rewrite words_build; auto.
    + intro H. apply app_eq_nil in H. destruct H; auto.
    + rewrite forallb_app, L, Q. reflexivity.
  - destruct q as [|c q].
    + destruct E as [-> |[t'' ->]].
      * exists []. cbn [app merge_loop]. rewrite !app_nil_r. split; [reflexivity|].
        change (l ++ x :: b') with ([] ++ l ++ x :: b'). rewrite words_build; auto.
        -- f_equal. rewrite sp_words_eq. rewrite (words_all_sep isSP) by auto. reflexivity.
        -- right. exists b'. simpl in B. apply andb_true_iff in B. destruct B as [B _]. apply Ascii.eqb_eq in B. now rewrite B.
      * exists t''. change ([] ++ SP :: t'') with (SP :: t''). cbn [merge_loop]. rewrite span_allsp by auto.
        change (Ascii.eqb SP SP) with true. cbn iota. rewrite merge_nil, <- app_assoc. split; [reflexivity|].
        change (l ++ (x :: b') ++ t'') with ([] ++ l ++ (x :: b') ++ t''). rewrite words_build; auto.
        -- rewrite app_nil_r. change (sp_words (SP :: t'')) with (words isSP (SP :: t'')). rewrite words_sep by reflexivity.
           change (sp_words ((x :: b') ++ t'')) with (words isSP ((x :: b') ++ t'')). rewrite words_seps by auto. reflexivity.
        -- right. exists (b' ++ t''). simpl in B. apply andb_true_iff in B. destruct B as [B _]. apply Ascii.eqb_eq in B. now rewrite B.
    + exists ((c :: q) ++ t'). cbn [app merge_loop]. change (x :: b') with ([] ++ x :: b') at 1. cbn [app]. rewrite span_allsp by auto.
      pose proof Q as Q0. simpl in Q. apply andb_true_iff in Q. destruct Q as [C Q]. apply negb_true_iff in C. pose proof C as C0. unfold isSP in C. rewrite C.
      simpl tl. rewrite merge_nil. split; [rewrite <- !app_assoc; reflexivity|].
      change (sp_words (l ++ x :: b' ++ c :: q ++ t')) with (sp_words ([] ++ l ++ ((x :: b') ++ (c :: q) ++ t'))). rewrite words_build; auto.
      * rewrite (words_build (x :: b') (c :: q) t'); auto; discriminate.
      * right. exists (b' ++ (c :: q) ++ t'). simpl in B. apply andb_true_iff in B. destruct B as [B _]. apply Ascii.eqb_eq in B. now rewrite B.
Qed.

Lemma forallb_app2 : forall (f : ascii -> bool) l q, forallb f (l ++ q) = true -> forallb f l = true /\ forallb f q = true.
Proof. intros f l q H. rewrite forallb_app in H. now apply andb_true_iff in H. Qed.

Theorem merge_words : forall u p t l q r, sp_words p = u ++ [l] -> sp_words t = u ++ (l ++ q) :: r ->
  forall out, exists s, merge_loop t p out = out ++ p ++ s /\
    ((~ ends_blank p \/ q = []) -> sp_words (p ++ s) = u ++ (l ++ q) :: r) /\
    ((ends_blank p /\ q <> []) -> sp_words (p ++ s) = u ++ l :: q :: r).
Proof.
  induction u as [|w u IH]; intros p t l q r P T out.
  - simpl in P, T. apply words_cons in P. destruct P as (b & p' & -> & B & NL & L & EP & WP).
    apply words_nil in WP. apply words_cons in T. destruct T as (b2 & t' & -> & B2 & N2 & L2 & ET & WT).
    pose proof (forallb_app2 _ _ _ L2) as [_ Q].
    rewrite merge_blanks; auto.
    2:{ destruct l; [easy|discriminate]. }
    2:{ destruct l; [easy|]. simpl. simpl in L. apply andb_true_iff in L. destruct L as [L _]. now apply negb_true_iff in L. }
    2:{ destruct l; [easy|]. simpl. simpl in L. apply andb_true_iff in L. destruct L as [L _]. now apply negb_true_iff in L. }
    rewrite <- (app_assoc l q t'), merge_word by auto.
    destruct (merge_last l q p' t' WP Q ET NL L ((out ++ b) ++ l)) as (s & ES & WS). exists s. rewrite ES, <- !app_assoc.
    split; [reflexivity|].
    change (sp_words (b ++ l ++ p' ++ s)) with (words isSP (b ++ l ++ p' ++ s)). rewrite words_seps by exact B.
    change (words isSP (l ++ p' ++ s)) with (sp_words (l ++ p' ++ s)). rewrite WS, WT.
    destruct p' as [|x p'].
    { simpl. rewrite app_nil_r. split; [reflexivity|]. intros [EB _]. exfalso.
      apply (proj1 (ends_app b l NL)) in EB. destruct EB as [v EB]. rewrite EB in L. rewrite forallb_app in L. apply andb_true_iff in L. destruct L as [_ L]. discriminate L. }
    assert (EB : ends_blank (b ++ l ++ x :: p')).
    { rewrite app_assoc. apply ends_app; [discriminate|]. apply ends_dec; [exact WP|discriminate]. }
    destruct q as [|c q].
    + split; [intros _; rewrite app_nil_r; reflexivity|]. intros [_ H]. congruence.
    + split; [intros [H|H]; [contradiction|discriminate]|]. reflexivity.
  - simpl in P, T. apply words_cons in P. destruct P as (b & p' & -> & B & NL & L & EP & WP).
    apply words_cons in T. destruct T as (b2 & t' & -> & B2 & _ & _ & ET & WT).
    rewrite merge_blanks; auto.
    2:{ destruct w; [easy|discriminate]. }
    2:{ destruct w; [easy|]. simpl. simpl in L. apply andb_true_iff in L. destruct L as [L _]. now apply negb_true_iff in L. }
    2:{ destruct w; [easy|]. simpl. simpl in L. apply andb_true_iff in L. destruct L as [L _]. now apply negb_true_iff in L. }
    rewrite merge_word by auto.
    destruct (IH p' t' l q r WP WT ((out ++ b) ++ w)) as (s & ES & W1 & W2). exists s. rewrite ES, <- !app_assoc. split; [reflexivity|].
    assert (NP : p' <> []) by (intros ->; destruct u; discriminate).
    assert (EQ : sp_words (b ++ w ++ p' ++ s) = w :: sp_words (p' ++ s)).
    { apply words_build; auto. destruct EP as [-> |[s'' ->]]; [congruence|]. right. exists (s'' ++ s). reflexivity. }
    assert (EB : ends_blank (b ++ w ++ p') <-> ends_blank p') by (rewrite app_assoc; apply ends_app; auto).
    rewrite EQ. split; intros H.
    + rewrite W1; [reflexivity|]. rewrite <- EB. exact H.
    + rewrite W2; [reflexivity|]. rewrite <- EB. exact H.
Qed.
(** a prefix of blanks only *)
Theorem merge_blank_prefix : forall p t, sp_words p = [] -> exists s, merge_loop t p [] = p ++ s /\ sp_words (p ++ s) = sp_words t.
Proof.
  intros p t P. apply words_nil in P. destruct p as [|x p]; [exists t; rewrite merge_nil; auto|].
  destruct t as [|c t].
  - exists []. simpl. rewrite app_nil_r. split; auto. rewrite sp_words_eq. change (x :: p) with (x :: p). rewrite (words_all_sep isSP) by auto. reflexivity.
  - cbn [merge_loop]. rewrite span_allsp by auto. destruct (Ascii.eqb c SP) eqn:C.
    + exists t. rewrite merge_nil. split; auto. change (sp_words (c :: t)) with (words isSP (c :: t)). rewrite words_sep by exact C.
      change (sp_words ((x :: p) ++ t)) with (words isSP ((x :: p) ++ t)). rewrite words_seps by exact P. reflexivity.
    + exists (c :: t). simpl tl. rewrite merge_nil, <- app_assoc. split; auto.
      change (sp_words ((x :: p) ++ c :: t)) with (words isSP ((x :: p) ++ c :: t)). rewrite words_seps by exact P. reflexivity.
Qed.

(** ** the whole of robustMergeTransWithUserPref *)
Lemma prefix_iff : forall v1 v2, isPrefixStrVec v1 v2 = true <-> word_prefix v1 v2.
Proof.
  intros v1 v2. rewrite isPrefixStrVec_spec. unfold word_prefix. split; intros [H|H]; auto; right.
  - destruct H as (u & l & l' & r & p & -> & -> & ->). exists u, l, p, r. auto.
  - destruct H as (u & l & q & r & -> & ->). exists u, l, (l ++ q), r, q. auto.
Qed.
Theorem merge_other : forall p t, ~ word_prefix (words is_blank p) (words is_blank t) -> robustMergeTransWithUserPref t p = Some p.
Proof.
  intros p t N. unfold robustMergeTransWithUserPref. rewrite !s2v_words. destruct (isPrefixStrVec _ _) eqn:E; auto.
  exfalso. apply N. now apply prefix_iff.
Qed.
Theorem merge_keeps : forall p t, no_tab p -> no_tab t -> exists s, robustMergeTransWithUserPref t p = Some (p ++ s).
Proof.
  intros p t NP NT. unfold robustMergeTransWithUserPref. rewrite !s2v_words, !words_blank_sp by auto.
  destruct (isPrefixStrVec _ _) eqn:E; [|exists []; now rewrite app_nil_r]. apply prefix_iff in E.
  destruct E as [E|(u & l & q & r & E1 & E2)].
  - destruct (merge_blank_prefix p t E) as (s & -> & _). exists s. reflexivity.
  - destruct (merge_words u p t l q r E1 E2 []) as (s & -> & _). exists s. reflexivity.
Qed.
Theorem merge_same_words : forall p t, no_tab p -> no_tab t -> word_prefix (sp_words p) (sp_words t) ->
  (~ ends_blank p \/ exists r, sp_words t = sp_words p ++ r) ->
  exists s, robustMergeTransWithUserPref t p = Some (p ++ s) /\ sp_words (p ++ s) = sp_words t.
Proof.
  intros p t NP NT W H. unfold robustMergeTransWithUserPref. rewrite !s2v_words, !words_blank_sp by auto.
  rewrite (proj2 (prefix_iff _ _) W). destruct W as [E|(u & l & q & r & E1 & E2)].
  - destruct (merge_blank_prefix p t E) as (s & -> & W). exists s. split; [reflexivity|exact W].
  - destruct (merge_words u p t l q r E1 E2 []) as (s & -> & W1 & _). exists s. split; [reflexivity|]. rewrite E2. apply W1.
    destruct H as [H|[r' H]]; auto. right. rewrite E1, E2, <- app_assoc in H. apply app_inv_head in H. simpl in H.
    injection H as H _. rewrite <- (app_nil_r l) in H at 2. now apply app_inv_head in H.
Qed.
Theorem merge_splits : forall u p t l q r, no_tab p -> no_tab t -> sp_words p = u ++ [l] -> sp_words t = u ++ (l ++ q) :: r -> q <> [] -> ends_blank p ->
  exists s, robustMergeTransWithUserPref t p = Some (p ++ s) /\ sp_words (p ++ s) = u ++ l :: q :: r.
Proof.
  intros u p t l q r NP NT E1 E2 NQ EB. unfold robustMergeTransWithUserPref. rewrite !s2v_words, !words_blank_sp by auto.
  assert (W : word_prefix (sp_words p) (sp_words t)) by (right; exists u, l, q, r; auto).
  rewrite (proj2 (prefix_iff _ _) W). destruct (merge_words u p t l q r E1 E2 []) as (s & -> & _ & W2). exists s. split; [reflexivity|]. apply W2. auto.
Qed.

(** ** merging after post-processing *)
Lemma overwrite_ok : forall p i res, i <= length res -> overwrite_loop p i res = firstn i res ++ p ++ skipn (i + length p) res.
Proof.
  induction p as [|c p IH]; intros i res L; cbn [overwrite_loop].
  - simpl. rewrite Nat.add_0_r. now rewrite firstn_skipn.
  - destruct (i <? length res) eqn:E.
    + apply Nat.ltb_lt in E. assert (F : length (firstn i res) = i) by (rewrite firstn_length; lia).
      rewrite IH by (rewrite app_length; simpl; rewrite F; lia).
      rewrite (firstn_app (S i)), F, (firstn_all2 (firstn i res)) by lia. replace (S i - i) with 1 by lia. simpl (firstn 1 _).
      rewrite <- app_assoc. f_equal. cbn [app]. f_equal. f_equal.
      rewrite (skipn_app (S i + length p)), F. rewrite (skipn_all2 (firstn i res)) by lia. rewrite app_nil_l.
      replace (S i + length p - i) with (S (length p)) by lia. cbn [skipn length].
      replace (i + S (length p)) with (length p + S i) by lia.
      clear -E. revert E. generalize (length p) as m. intros m E. revert i E m. induction res as [|x res IHr]; intros i E m; [simpl in E; lia|].
      destruct i as [|i]; [simpl; rewrite Nat.add_1_r; reflexivity|]. rewrite (Nat.add_succ_r m (S i)). simpl. apply IHr. simpl in E. lia.
    + apply Nat.ltb_ge in E. assert (i = length res) by lia. subst i. rewrite IH by (rewrite app_length; simpl; lia).
      rewrite firstn_all, (firstn_all2 (res ++ [c])) by (rewrite app_length; simpl; lia).
      rewrite (skipn_all2 (res ++ [c])), (skipn_all2 res) by (rewrite ?app_length; simpl; lia). rewrite !app_nil_r, <- app_assoc. reflexivity.
Qed.
Theorem post_merge : forall post p, robustMergePostProcTransWithUserPref post p = p ++ skipn (length p) post.
Proof. intros post p. unfold robustMergePostProcTransWithUserPref. rewrite overwrite_ok by lia. reflexivity. Qed.

Lemma robust_output_prefix : forall e u q pp t out, robustObtainFinalOutput e u q pp t = Some out -> exists s, out = u ++ s.
Proof.
  intros e u q pp t out. unfold robustObtainFinalOutput. destruct (stringToStringVector pp); [|discriminate].
  destruct (stringToStringVector t); [|discriminate]. destruct (postprocWithCriticalError _ _ _ _ _) as [po|]; [|discriminate].
  intros H. injection H as <-. rewrite post_merge. eexists. reflexivity.
Qed.

(** ** the last word *)
Lemma nth_last : forall (s : str) c, nth (length (s ++ [c]) - 1) (s ++ [c]) NUL = c.
Proof. intros s c. rewrite app_length, app_nth2; simpl; try lia. replace (length s + 1 - 1 - length s) with 0 by lia. reflexivity. Qed.
Lemma last_blank_iff : forall s, s <> [] -> (Ascii.eqb (nth (length s - 1) s NUL) SP = true <-> ends_blank s).
Proof.
  intros s N. destruct (exists_last N) as (u & c & ->). rewrite nth_last. split; intros H.
  - apply Ascii.eqb_eq in H. subst. now exists u.
  - destruct H as [v H]. apply app_inj_tail in H. destruct H as [_ ->]. reflexivity.
Qed.
Lemma back_word : forall u w i, ~ In SP w -> i <= length w -> back_to_blank (u ++ SP :: w) (length u + S i) = (match i with _ => length u end).
Proof.
  intros u w i N. induction i as [|i IH]; intros L.
  - replace (length u + 1) with (S (length u)) by lia. cbn [back_to_blank].
    rewrite app_nth2 by lia. replace (S (length u) - length u) with 1 by lia. change (nth 1 (SP :: w) NUL) with (nth 0 w NUL).
    assert (H : Ascii.eqb (nth 0 w NUL) SP = false).
    { apply Ascii.eqb_neq. intro H. destruct w as [|c w]; [discriminate|]. apply N. now left. }
    rewrite H. destruct (length u) as [|k] eqn:E.
    + reflexivity.
    + cbn [back_to_blank]. rewrite <- E, app_nth2, Nat.sub_diag by lia. reflexivity.
  - replace (length u + S (S i)) with (S (length u + S i)) by lia. cbn [back_to_blank].
    rewrite app_nth2 by lia. replace (S (length u + S i) - length u) with (S (S i)) by lia. change (nth (S (S i)) (SP :: w) NUL) with (nth (S i) w NUL).
    assert (H : Ascii.eqb (nth (S i) w NUL) SP = false).
    { apply Ascii.eqb_neq. intro H. destruct (Nat.lt_ge_cases (S i) (length w)) as [Q|Q].
      - apply N. rewrite <- H. now apply nth_In.
      - rewrite nth_overflow in H by lia. discriminate. }
    rewrite H. apply IH. lia.
Qed.
Lemma back_start : forall w i, ~ In SP w -> back_to_blank w i = 0.
Proof.
  intros w i N. induction i as [|i IH]; auto. cbn [back_to_blank].
  assert (H : Ascii.eqb (nth (S i) w NUL) SP = false).
  { apply Ascii.eqb_neq. intro H. destruct (Nat.lt_ge_cases (S i) (length w)) as [Q|Q].
    - apply N. rewrite <- H. now apply nth_In.
    - rewrite nth_overflow in H by lia. discriminate. }
  now rewrite H.
Qed.
Lemma back_last : forall s w, last_word_is s w -> w <> [] ->
  (let i := back_to_blank s (length s) in let i := if Ascii.eqb (nth i s NUL) SP then S i else i in skipn i s) = w.
Proof.
  intros s w [N H] NW. rewrite space_SP in *. cbv zeta. destruct H as [-> |[u ->]].
  - rewrite back_start by auto. assert (E : Ascii.eqb (nth 0 w NUL) SP = false).
    { destruct w as [|c w]; [congruence|]. apply Ascii.eqb_neq. intro H. apply N. now left. }
    rewrite E. reflexivity.
  - rewrite app_length. cbn [length]. rewrite back_word by (auto; lia). rewrite app_nth2, Nat.sub_diag by lia. cbn [nth].
    change (Ascii.eqb SP SP) with true. cbn iota. rewrite skipn_app, skipn_all2 by lia. replace (S (length u) - length u) with 1 by lia. reflexivity.
Qed.
Lemma last_word_nonblank : forall s w, last_word_is s w -> w <> [] -> s <> [] /\ ~ ends_blank s.
Proof.
  intros s w [N H] NW. split.
  - destruct H as [-> |[u ->]]; auto. intro E. apply app_eq_nil in E. destruct E; discriminate.
  - intros [v E]. destruct (exists_last NW) as (w' & c & ->).
    assert (c = space).
    { destruct H as [H|[u H]]; [rewrite H in E; now apply app_inj_tail in E|].
      rewrite E in H. change (space :: w' ++ [c]) with ((space :: w') ++ [c]) in H. rewrite app_assoc in H. apply app_inj_tail in H. symmetry. apply H. }
    subst c. apply N. apply in_or_app. right. now left.
Qed.

Definition last2 {A} (v : list A) : list A := skipn (length v - 2) v.
Lemma hist_last2 : forall (v : list str) w, let k := length (v ++ [w]) in
  (if 3 <=? k then [nth (k - 3) (v ++ [w]) []] else []) ++ (if 2 <=? k then [nth (k - 2) (v ++ [w]) []] else []) = last2 v.
Proof.
  intros v w k. unfold k, last2. rewrite app_length. cbn [length].
  destruct v as [|a v] using rev_ind; [reflexivity|]. clear IHv. destruct v as [|b v] using rev_ind; [reflexivity|]. clear IHv.
  rewrite <- !app_assoc. cbn [app]. rewrite !app_length. cbn [length].
  replace (3 <=? _) with true by (symmetry; apply Nat.leb_le; lia). replace (2 <=? _) with true by (symmetry; apply Nat.leb_le; lia).
  replace (length v + 2 + 1 - 3) with (length v) by lia. replace (length v + 2 + 1 - 2) with (S (length v)) by lia. replace (length v + 2 - 2) with (length v) by lia.
  rewrite !app_nth2 by lia. rewrite Nat.sub_diag. replace (S (length v) - length v) with 1 by lia. cbn [nth app].
  rewrite skipn_app, skipn_all, Nat.sub_diag. reflexivity.
Qed.

Section SEG.
Variable sep : ascii -> bool.
Lemma segments_app_sep : forall u c w, sep c = true -> segments sep (u ++ c :: w) = segments sep u ++ segments sep w.
Proof.
  induction u as [|x u IH]; intros c w H; simpl; [now rewrite H|]. rewrite IH by auto. destruct (sep x); auto.
  pose proof (segments_ne sep u). destruct (segments sep u); [congruence|]. reflexivity.
Qed.
Lemma words_app_sep : forall u c w, sep c = true -> words sep (u ++ c :: w) = words sep u ++ words sep w.
Proof. intros u c w H. unfold words. now rewrite segments_app_sep, filter_app. Qed.
Lemma segments_app : forall q x, exists a z h t, segments sep q = a ++ [z] /\ segments sep x = h :: t /\ segments sep (q ++ x) = a ++ (z ++ h) :: t.
Proof.
  induction q as [|c q IH]; intros x.
  - pose proof (segments_ne sep x). simpl. destruct (segments sep x) as [|h t]; [congruence|]. exists [], [], h, t. auto.
  - destruct (IH x) as (a & z & h & t & E1 & E2 & E3). simpl. rewrite E1, E2, E3. destruct (sep c).
    + exists ([] :: a), z, h, t. auto.
    + destruct a as [|a0 a]; simpl.
      * exists [], (c :: z), h, t. auto.
      * exists ((c :: a0) :: a), z, h, t. auto.
Qed.
Lemma word_prefix_app : forall q x, word_prefix (words sep q) (words sep (q ++ x)).
Proof.
  intros q x. destruct (segments_app q x) as (a & z & h & t & E1 & _ & E3). unfold words. rewrite E1, E3, !filter_app. cbn [filter].
  destruct z as [|c z].
  - simpl. rewrite app_nil_r. destruct (filter nonempty a) as [|w v] eqn:E using rev_ind; [now left|]. right.
    exists v, w, [], (if nonempty h then h :: filter nonempty t else filter nonempty t). rewrite app_nil_r, <- app_assoc. auto.
  - right. exists (filter nonempty a), (c :: z), h, (filter nonempty t). auto.
Qed.
Definition jl (v : list str) : nat := length (concat v) + (length v - 1).
Lemma jl_words : forall s, jl (words sep s) <= length s.
Proof.
  intros s. assert (A : length (concat (segments sep s)) + length (segments sep s) <= S (length s)).
  { induction s as [|c s IH]; simpl; auto. destruct (sep c); simpl; [lia|]. pose proof (segments_ne sep s).
    destruct (segments sep s) as [|g gs]; [congruence|]. simpl in *. rewrite app_length in *. lia. }
  assert (B : forall v, length (concat (filter nonempty v)) = length (concat v) /\ length (filter nonempty v) <= length v).
  { induction v as [|w v [I1 I2]]; simpl; auto. destruct w; simpl; rewrite ?app_length; unfold str in *; split; lia. }
  pose proof (B (segments sep s)) as [B1 B2]. unfold jl, words. pose proof (segments_ne sep s) as NE.
  assert (1 <= length (segments sep s)) by (destruct (segments sep s); [congruence|simpl; lia]).
  unfold str in *. lia.
Qed.
End SEG.
Lemma jl_prefix : forall v1 v2, word_prefix v1 v2 -> jl v1 <= jl v2.
Proof.
  intros v1 v2 [-> |(u & l & q & r & -> & ->)]; unfold jl; [simpl; lia|]. rewrite !concat_app, !app_length. simpl. rewrite !app_length. simpl. lia.
Qed.

Lemma last_word_words : forall s w, last_word_is s w -> w <> [] -> exists v, sp_words s = v ++ [w].
Proof.
  intros s w [N H] NW. assert (W : sp_words w = [w]).
  { rewrite <- (app_nil_r w) at 1. rewrite sp_words_eq, words_token; auto. apply forallb_forall. intros c I. apply negb_true_iff. apply Ascii.eqb_neq. intro. subst. now apply N. }
  destruct H as [-> |[u ->]]; [exists []; auto|]. exists (sp_words u). rewrite !sp_words_eq, words_app_sep by reflexivity.
  change (words isSP w) with (sp_words w). now rewrite W.
Qed.

Theorem expand_word : forall pred s w v, no_tab s -> last_word_is s w -> 2 <= length w -> sp_words s = v ++ [w] ->
  expandLastWord pred s = Some (let suf := pred (last2 v) w in s ++ (match suf with [] => [] | _ => suf ++ [space] end), w ++ pred (last2 v) w).
Proof.
  intros pred s w v NT H L W. assert (NW : w <> []) by (intros ->; simpl in L; lia).
  destruct (last_word_nonblank s w H NW) as [NS NB]. unfold expandLastWord.
  assert (0 < length s) by (destruct s; [congruence|simpl; lia]). rewrite (proj2 (Nat.ltb_lt _ _) H0).
  cbv zeta. destruct (Ascii.eqb (nth (length s - 1) s NUL) SP) eqn:E; [exfalso; apply NB; now apply last_blank_iff|].
  pose proof (back_last s w H NW) as B. cbv zeta in B. rewrite B. cbn [orb].
  unfold MINIMUM_WORD_LENGTH_TO_EXPAND. rewrite (proj2 (Nat.leb_gt (length w) 1)) by lia. rewrite s2v_words, words_blank_sp, W by auto.
  pose proof (hist_last2 v w) as HH. cbv zeta in HH. rewrite HH. destruct (pred (last2 v) w); reflexivity.
Qed.
Theorem expand_none : forall pred s, (s = [] \/ ends_blank s \/ exists w, last_word_is s w /\ length w = 1) ->
  exists w, expandLastWord pred s = Some (s, w).
Proof.
  intros pred s H. unfold expandLastWord. destruct (0 <? length s) eqn:E; [|eauto]. apply Nat.ltb_lt in E.
  assert (NS : s <> []) by (intros ->; simpl in E; lia). cbv zeta.
  destruct (Ascii.eqb (nth (length s - 1) s NUL) SP) eqn:EB; [cbn [orb]; eauto|]. destruct H as [H|[H|[w [H L]]]]; [congruence| |].
  - apply last_blank_iff in H; auto. congruence.
  - assert (NW : w <> []) by (intros ->; discriminate). pose proof (back_last s w H NW) as B. cbv zeta in B. rewrite B, L. simpl. eauto.
Qed.
Lemma expand_total : forall pred s, exists x w, expandLastWord pred s = Some (s ++ x, w) /\
  (x = [] \/ exists h l, x = pred h l ++ [space] \/ x = pred h l).
Proof.
  intros pred s. unfold expandLastWord. destruct (0 <? length s); [|exists [], []; rewrite app_nil_r; auto].
  cbv zeta. match goal with |- context [if ?b then _ else match _ with _ => _ end] => destruct b end; [eexists [], _; rewrite app_nil_r; auto|].
  rewrite s2v_words. match goal with |- context [pred ?h ?w] => set (hh := h); set (ww := w) end.
  destruct (0 <? length (pred hh ww)).
  - exists (pred hh ww ++ [SP]), (ww ++ pred hh ww). split; auto. right. exists hh, ww. now left.
  - exists (pred hh ww), (ww ++ pred hh ww). split; auto. right. exists hh, ww. now right.
Qed.

(** ** word completion *)
Lemma common_len_app : forall a b, common_len a (a ++ b) = length a.
Proof. induction a as [|x a IH]; intros b; simpl; auto. now rewrite Ascii.eqb_refl, IH. Qed.
Theorem completion_prefix : forall u r, u <> [] -> getWordCompletion u (u ++ r) = r.
Proof.
  intros u r N. unfold getWordCompletion. rewrite app_length. destruct (length u + length r <=? length u) eqn:E.
  - apply Nat.leb_le in E. destruct r; auto. simpl in E. lia.
  - rewrite common_len_app. destruct u as [|c u]; [congruence|]. cbn [length]. change (1 <=? S (length u)) with true. cbn iota.
    change (S (length u)) with (length (c :: u)). rewrite skipn_app, skipn_all, Nat.sub_diag. reflexivity.
Qed.
Theorem completion_other : forall u c, (length c <= length u \/ u = [] \/ (exists x u' y c', u = x :: u' /\ c = y :: c' /\ x <> y)) -> getWordCompletion u c = [].
Proof.
  intros u c H. unfold getWordCompletion. destruct (length c <=? length u) eqn:E; auto. apply Nat.leb_gt in E.
  destruct H as [H|[-> |(x & u' & y & c' & -> & -> & N)]]; [lia| |].
  - reflexivity.
  - cbn [common_len]. apply Ascii.eqb_neq in N. now rewrite N.
Qed.
Theorem completion_first_char : forall x a b, length a < length b -> getWordCompletion (x :: a) (x :: b) = skipn (length a) b.
Proof.
  intros x a b L. unfold getWordCompletion. cbn [length]. destruct (S (length b) <=? S (length a)) eqn:E; [apply Nat.leb_le in E; lia|].
  cbn [common_len]. rewrite Ascii.eqb_refl. reflexivity.
Qed.

(** ** sessions *)
Definition prefix_of_op (o : cat_op) : bool := match o with OpAdd _ | OpSet _ => true | _ => false end.
Definition op_text (o : cat_op) : str := match o with OpAdd s | OpSet s => s | _ => [] end.

Lemma cstr_id : forall s, no_nul s -> cstr s = s. Proof. intros s H. apply cstr_good. exact H. Qed.

Lemma add_total : forall m e tp s tp' out, addStrToPrefAux m e tp s = Some (tp', out) -> tp' = tp ++ s.
Proof.
  intros m e tp s tp' out. unfold addStrToPrefAux. assert (E : match tp with [] => s | _ => tp ++ s end = tp ++ s) by (destruct tp; auto).
  rewrite E. destruct m.
  - destruct (expandLastWord _ _) as [[pp w]|]; [|discriminate]. destruct (robustObtainFinalOutput _ _ _ _ _); [|discriminate]. congruence.
  - destruct (expandLastWord _ _) as [[pp w]|]; [|discriminate]. destruct (robustMergeTransWithUserPref _ _); [|discriminate]. congruence.
Qed.
Lemma add_output : forall m e tp s tp' out, addStrToPrefAux m e tp s = Some (tp', out) ->
  (m = false -> no_tab tp' /\ (forall h w, no_tab (e_pred e h w)) /\ forall p, no_tab (e_trans e p)) -> exists r, out = tp' ++ r.
Proof.
  intros m e tp s tp' out H C. pose proof (add_total _ _ _ _ _ _ H) as ET. revert H. unfold addStrToPrefAux.
  assert (E : match tp with [] => s | _ => tp ++ s end = tp') by (destruct tp; auto). rewrite E. destruct m.
  - destruct (expandLastWord _ _) as [[pp w]|]; [|discriminate]. destruct (robustObtainFinalOutput _ _ _ _ _) eqn:R; [|discriminate].
    intros H. injection H as <-. eapply robust_output_prefix. exact R.
  - destruct (C eq_refl) as (NT & NP & NE). destruct (expand_total (e_pred e) tp') as (x & w & EX & X). rewrite EX.
    assert (NX : no_tab x).
    { destruct X as [-> |(h & l & [-> | ->])]; [intros []| |apply NP]. intros I. apply in_app_or in I. destruct I as [I|[I|[]]]; [now apply NP in I|discriminate]. }
    assert (NPX : no_tab (tp' ++ x)) by (intros I; apply in_app_or in I; destruct I; auto).
    destruct (merge_keeps (tp' ++ x) (e_trans e (tp' ++ x)) NPX (NE _)) as (r & ->). intros H. injection H as <-. rewrite <- app_assoc. eauto.
Qed.
Lemma step_total : forall m tp o e tp' out, no_nul (op_text o) -> cat_step m tp o e = Some (tp', out) -> tp' = typed1 tp o.
Proof.
  intros m tp o e tp' out N. destruct o as [|s|s|]; cbn [cat_step typed1 op_text] in *.
  - unfold startCat. destruct m; congruence.
  - rewrite cstr_id by auto. apply add_total.
  - unfold setPref. rewrite cstr_id by auto. destruct (isPrefix tp s) eqn:E.
    + apply isPrefix_spec in E. destruct E as [r ->]. rewrite skipn_app, skipn_all, Nat.sub_diag. cbn [app skipn].
      rewrite cstr_id by (intros I; apply N; apply in_or_app; auto). apply add_total.
    + intros H. apply add_total in H. rewrite ?(cstr_id s N) in H. exact H.
  - congruence.
Qed.
Lemma step_output : forall m tp o e tp' out, no_nul (op_text o) -> prefix_of_op o = true -> cat_step m tp o e = Some (tp', out) ->
  (m = false -> no_tab tp' /\ (forall h w, no_tab (e_pred e h w)) /\ forall p, no_tab (e_trans e p)) -> exists r, out = tp' ++ r.
Proof.
  intros m tp o e tp' out N P. destruct o as [|s|s|]; try discriminate; cbn [cat_step].
  - apply add_output.
  - unfold setPref. destruct (isPrefix _ _); apply add_output.
Qed.

Lemma typed_from : forall os p, fold_left typed1 os p = fold_left typed1 os p. Proof. reflexivity. Qed.
Theorem session_total : forall m os tp tp' outs, (forall o e, In (o, e) os -> no_nul (op_text o)) ->
  cat_session m tp os = Some (tp', outs) -> tp' = fold_left typed1 (map fst os) tp /\ length outs = length os.
Proof.
  intros m. induction os as [|[o e] os IH]; intros tp tp' outs N H; cbn [cat_session] in H; [split; [cbn; congruence|injection H as _ <-; reflexivity]|].
  destruct (cat_step m tp o e) as [[tp1 out]|] eqn:E; [|discriminate]. destruct (cat_session m tp1 os) as [[tp2 os2]|] eqn:E2; [|discriminate].
  injection H as <- <-. apply step_total in E; [|eapply N; left; reflexivity]. subst tp1. apply IH in E2; [|intros; eapply N; right; eassumption].
  destruct E2 as [E2 L]. split; [exact E2|cbn; now rewrite L].
Qed.
Lemma typed_no_tab : forall os p, no_tab p -> (forall o, In o os -> no_tab (op_text o)) -> no_tab (fold_left typed1 os p).
Proof.
  induction os as [|o os IH]; intros p P N; auto. cbn. apply IH; [|intros; apply N; now right].
  pose proof (N o (or_introl eq_refl)). destruct o; cbn in *; auto; try (intros []). intros I. apply in_app_or in I. destruct I; auto.
Qed.
Theorem session_outputs : forall m os tp tp' outs, (forall o e, In (o, e) os -> no_nul (op_text o)) ->
  (m = false -> no_tab tp /\ forall o e, In (o, e) os -> no_tab (op_text o) /\ (forall h w, no_tab (e_pred e h w)) /\ forall p, no_tab (e_trans e p)) ->
  cat_session m tp os = Some (tp', outs) ->
  forall i o out, nth_error (map fst os) i = Some o -> prefix_of_op o = true -> nth_error outs i = Some out ->
  exists r, out = fold_left typed1 (firstn (S i) (map fst os)) tp ++ r.
Proof.
  intros m. induction os as [|[o e] os IH]; intros tp tp' outs N C H i o' out Ho P Hout; [destruct i; discriminate|].
  cbn [cat_session] in H. destruct (cat_step m tp o e) as [[tp1 out1]|] eqn:E; [|discriminate].
  destruct (cat_session m tp1 os) as [[tp2 os2]|] eqn:E2; [|discriminate]. injection H as <- <-.
  pose proof (step_total _ _ _ _ _ _ (N o e (or_introl eq_refl)) E) as ET.
  assert (NT : m = false -> no_tab tp1).
  { intros M. destruct (C M) as [CT CO]. rewrite ET. destruct (CO o e (or_introl eq_refl)) as [CO1 _]. apply (typed_no_tab [o] tp); auto.
    intros o1 [<-|[]]. exact CO1. }
  destruct i as [|i].
  - cbn in Ho, Hout. injection Ho as <-. injection Hout as <-. cbn [map fst firstn fold_left]. rewrite <- ET.
    eapply step_output; [eapply N; left; reflexivity|exact P|exact E|]. intros M. destruct (C M) as [CT CO].
    destruct (CO o e (or_introl eq_refl)) as (_ & C1 & C2). auto.
  - cbn [map nth_error] in Ho, Hout. change (map fst ((o, e) :: os)) with (o :: map fst os). change (firstn (S (S i)) (o :: map fst os)) with (o :: firstn (S i) (map fst os)).
    cbn [fold_left]. rewrite <- ET. eapply IH; [intros; eapply N; right; eassumption| |exact E2|exact Ho|exact P|exact Hout].
    intros M. split; [auto|]. intros o1 e1 I. destruct (C M) as [_ CO]. apply (CO o1 e1). now right.
Qed.

(** ** no read past the end of the translation *)
Lemma one_spaced_len : forall q, one_spaced q -> length q <= jl (sp_words q) + 1.
Proof.
  intros q (b & B & E). set (v := sp_words q) in *. assert (L : length (match v with [] => [] | w :: v => w ++ concat (map (fun x => space :: x) v) end) <= jl v).
  { unfold jl. destruct v as [|w v']; [simpl; lia|]. cbn [length concat]. rewrite !app_length.
    assert (length (concat (map (fun x => space :: x) v')) = length (concat v') + length v').
    { clear. induction v' as [|x v' IH]; simpl; auto. rewrite !app_length, IH. unfold str in *. lia. }
    unfold str in *. lia. }
  rewrite E at 1. rewrite app_length. destruct B as [-> | ->]; cbn [length]; unfold str in *; lia.
Qed.
Lemma end_in_trans_ok : forall ic q t, length q <= length t + 1 -> fst (end_in_trans ic q t) <= length t + 1.
Proof.
  intros ic q t L. unfold end_in_trans. destruct (_ && _) eqn:E; [|exact L].
  apply andb_true_iff in E. destruct E as [E _]. apply andb_true_iff in E. destruct E as [_ E]. apply Nat.ltb_lt in E.
  destruct (span _ (skipn (length q) t)) as [w rest] eqn:SP1. cbn [fst]. apply span_app in SP1. destruct SP1 as (SP1 & _).
  assert (length w + length rest = length t - length q) by (rewrite <- app_length, <- SP1; apply skipn_length).
  destruct (_ <? _) eqn:E3; [apply Nat.ltb_lt in E3|]; lia.
Qed.
Lemma postproc_defined : forall e u q pp t, length q <= length t + 1 -> postprocWithCriticalError e u q pp t <> None.
Proof.
  intros e u q pp t L. unfold postprocWithCriticalError. pose proof (end_in_trans_ok (lastPrefWordIsCategory e q) q t L) as H.
  destruct (end_in_trans _ q t) as [k c]. cbn [fst] in H. rewrite (proj2 (Nat.ltb_ge _ _) H). discriminate.
Qed.
Theorem robust_defined : forall e u q x t, no_tab q -> one_spaced q -> robustObtainFinalOutput e u q (q ++ x) t <> None.
Proof.
  intros e u q x t NT O. unfold robustObtainFinalOutput. rewrite !s2v_words.
  destruct (isPrefixStrVec _ _) eqn:E.
  - apply prefix_iff in E. assert (L : length q <= length t + 1).
    { pose proof (one_spaced_len q O). rewrite <- words_blank_sp in H by auto.
      pose proof (jl_prefix _ _ (word_prefix_app is_blank q x)). pose proof (jl_prefix _ _ E). pose proof (jl_words is_blank t). unfold str in *. lia. }
    pose proof (postproc_defined e u q (q ++ x) t L). destruct (postprocWithCriticalError _ _ _ _ _); congruence.
  - assert (L : length q <= length (q ++ x) + 1) by (rewrite app_length; lia).
    pose proof (postproc_defined e u q (q ++ x) (q ++ x) L). destruct (postprocWithCriticalError _ _ _ _ _); congruence.
Qed.
Theorem add_defined : forall m e (tp s : str), (m = true -> no_tab (e_pre e (tp ++ s)) /\ one_spaced (e_pre e (tp ++ s))) ->
  exists out, addStrToPrefAux m e tp s = Some (tp ++ s, out).
Proof.
  intros m e tp s C. unfold addStrToPrefAux. assert (E : match tp with [] => s | _ => tp ++ s end = tp ++ s) by (destruct tp; auto).
  cbv zeta. rewrite E. destruct m.
  - destruct (C eq_refl) as [NT O]. destruct (expand_total (e_pred e) (e_pre e (tp ++ s))) as (x & w & -> & _).
    pose proof (robust_defined e (tp ++ s) _ x (cstr (e_trans e (e_pre e (tp ++ s) ++ x))) NT O).
    destruct (robustObtainFinalOutput _ _ _ _ _) as [o|]; [eauto|congruence].
  - destruct (expand_total (e_pred e) (tp ++ s)) as (x & w & -> & _). unfold robustMergeTransWithUserPref. rewrite !s2v_words.
    destruct (isPrefixStrVec _ _); eauto.
Qed.
Theorem step_defined : forall m tp o e, no_nul (op_text o) -> (m = true -> prefix_of_op o = true -> no_tab (e_pre e (typed1 tp o)) /\ one_spaced (e_pre e (typed1 tp o))) ->
  exists out, cat_step m tp o e = Some (typed1 tp o, out).
Proof.
  intros m tp o e N C. destruct o as [|s|s|]; cbn [cat_step typed1 op_text prefix_of_op] in *.
  - unfold startCat. destruct m; eauto.
  - rewrite cstr_id by auto. apply add_defined. auto.
  - unfold setPref. rewrite cstr_id by auto. destruct (isPrefix tp s) eqn:E.
    + apply isPrefix_spec in E. destruct E as [r ->]. rewrite skipn_app, skipn_all, Nat.sub_diag. cbn [app skipn].
      rewrite cstr_id by (intros I; apply N; apply in_or_app; auto). apply add_defined. auto.
    + rewrite ?(cstr_id s N). apply (add_defined m e [] s). auto.
  - eauto.
Qed.

(** ** a pre/post-processor that changes nothing *)
Lemma mark_head : exists r, END_OF_PREF_MARK = "<"%char :: r. Proof. eexists. reflexivity. Qed.
Lemma find_mark : forall s r i, ~ In "<"%char s -> find END_OF_PREF_MARK (s ++ END_OF_PREF_MARK ++ r) i = Some (i + length s).
Proof.
  induction s as [|c s IH]; intros r i N.
  - rewrite Nat.add_0_r. assert (P : isPrefix END_OF_PREF_MARK ([] ++ END_OF_PREF_MARK ++ r) = true) by (apply isPrefix_spec; exists r; reflexivity).
    destruct ([] ++ END_OF_PREF_MARK ++ r) eqn:E; [discriminate|]. cbn [find]. now rewrite P.
  - cbn [app find]. destruct (isPrefix END_OF_PREF_MARK (c :: s ++ END_OF_PREF_MARK ++ r)) eqn:P.
    + exfalso. apply isPrefix_spec in P. destruct P as [r' P]. destruct mark_head as [m M]. rewrite M in P at 2. injection P as P _. apply N. now left.
    + rewrite IH by (intro; apply N; now right). f_equal. cbn [length]. lia.
Qed.
Lemma find_none : forall s i, ~ In "<"%char s -> find END_OF_PREF_MARK s i = None.
Proof.
  induction s as [|c s IH]; intros i N; [reflexivity|]. cbn [find].
  destruct (isPrefix END_OF_PREF_MARK (c :: s)) eqn:P; [|apply IH; intro; apply N; now right].
  exfalso. apply isPrefix_spec in P. destruct P as [r' P]. destruct mark_head as [m M]. rewrite M in P. injection P as P _. apply N. now left.
Qed.
Lemma mark_no_nul : no_nul END_OF_PREF_MARK. Proof. unfold no_nul, END_OF_PREF_MARK. cbv. intuition discriminate. Qed.
Lemma skip_mark : forall s r, skipn (length s + length END_OF_PREF_MARK) (s ++ END_OF_PREF_MARK ++ r) = r.
Proof. intros s r. rewrite app_assoc, <- app_length, skipn_app, skipn_all, Nat.sub_diag. reflexivity. Qed.
Lemma strip_last : forall q, q <> [] ->
  (if (0 <? length q) && Ascii.eqb (nth (length q - 1) q NUL) SP then removeLastBlank q else q) =
  (if Ascii.eqb (nth (length q - 1) q NUL) SP then firstn (length q - 1) q else q).
Proof.
  intros q N. assert (0 < length q) by (destruct q; [congruence|simpl; lia]). rewrite (proj2 (Nat.ltb_lt _ _) H). cbn [andb].
  unfold removeLastBlank, lastCharIsBlank. rewrite (proj2 (Nat.ltb_lt _ _) H). cbn [andb]. destruct (Ascii.eqb _ SP); auto.
Qed.

Theorem identity_output : forall e q rest pp, (forall s, e_post e s = s) -> lastPrefWordIsCategory e q = false -> q <> [] ->
  no_nul (q ++ rest) -> ~ In "<"%char (q ++ rest) -> word_prefix (words is_blank pp) (words is_blank (q ++ rest)) ->
  exists out, robustObtainFinalOutput e q q pp (q ++ rest) = Some out /\ (q ++ rest = out \/ q ++ rest = out ++ [space]).
Proof.
  intros e q rest pp HP HC NQ NN NL WP. unfold robustObtainFinalOutput. rewrite !s2v_words, (proj2 (prefix_iff _ _) WP).
  unfold postprocWithCriticalError. rewrite HC. rewrite strip_last by auto.
  assert (LQ : 0 < length q) by (destruct q; [congruence|simpl; lia]).
  assert (NN2 : forall a b, q ++ rest = a ++ b -> no_nul (a ++ END_OF_PREF_MARK ++ SP :: b) /\ no_nul (a ++ SP :: END_OF_PREF_MARK ++ b) /\ ~ In "<"%char a /\ ~ In "<"%char (a ++ [SP])).
  { intros a b E. rewrite E in *. pose proof mark_no_nul as MN. unfold no_nul in *.
    assert (A1 : ~ In (ascii_of_nat 0) a) by (intro; apply NN; apply in_or_app; auto).
    assert (A2 : ~ In (ascii_of_nat 0) b) by (intro; apply NN; apply in_or_app; auto).
    assert (A3 : ~ In "<"%char a) by (intro; apply NL; apply in_or_app; auto).
    split; [|split; [|split]]; auto; intros I; apply in_app_or in I; destruct I as [I|I]; auto.
    - apply in_app_or in I. destruct I as [I|[I|I]]; auto; discriminate.
    - destruct I as [I|I]; [discriminate|]. apply in_app_or in I. destruct I; auto.
    - destruct I as [I|[]]. discriminate. }
  (* what comes out once the end of the prefix is known *)
  assert (K : forall a b, q ++ rest = a ++ b ->
    skipn (match find END_OF_PREF_MARK (e_post e (cstr (a ++ END_OF_PREF_MARK ++ SP :: b))) 0 with Some i => i | None => length (e_post e (cstr (a ++ END_OF_PREF_MARK ++ SP :: b))) end + length END_OF_PREF_MARK)
      (e_post e (cstr (a ++ END_OF_PREF_MARK ++ SP :: b))) = SP :: b).
  { intros a b E. destruct (NN2 a b E) as (M1 & _ & M3 & _). rewrite cstr_id, HP by auto. rewrite find_mark by auto. apply skip_mark. }
  assert (K2 : skipn (match find END_OF_PREF_MARK (e_post e (cstr ((q ++ rest) ++ SP :: END_OF_PREF_MARK))) 0 with Some i => i | None => length (e_post e (cstr ((q ++ rest) ++ SP :: END_OF_PREF_MARK))) end + length END_OF_PREF_MARK)
      (e_post e (cstr ((q ++ rest) ++ SP :: END_OF_PREF_MARK))) = []).
  { destruct (NN2 (q ++ rest) [] (eq_sym (app_nil_r _))) as (_ & M2 & _ & M4). rewrite app_nil_r in M2. rewrite cstr_id, HP by auto.
    pose proof (find_mark ((q ++ rest) ++ [SP]) [] 0 M4) as F. rewrite app_nil_r in F.
    replace ((q ++ rest) ++ SP :: END_OF_PREF_MARK) with (((q ++ rest) ++ [SP]) ++ END_OF_PREF_MARK) by (rewrite <- (app_assoc (q ++ rest) [SP]); reflexivity).
    rewrite F. pose proof (skip_mark ((q ++ rest) ++ [SP]) []) as G. rewrite app_nil_r in G. exact G. }
  unfold end_in_trans. rewrite (proj2 (Nat.ltb_lt _ _) LQ). cbn [andb].
  destruct (Ascii.eqb (nth (length q - 1) q NUL) SP) eqn:EB.
  - (* the typed prefix ends with a blank *)
    rewrite andb_false_r. assert (EQ : ends_blank q) by (now apply last_blank_iff). destruct EQ as [q' EQ].
    assert (F1 : firstn (length q - 1) q = q') by (rewrite EQ, app_length; cbn [length]; rewrite Nat.add_sub, firstn_app, firstn_all, Nat.sub_diag; apply app_nil_r).
    rewrite F1. rewrite (proj2 (Nat.ltb_ge _ _)) by (rewrite app_length; lia).
    rewrite (firstn_app (length q)), app_length. replace (length q - (length q + length rest)) with 0 by lia. rewrite firstn_O, app_nil_r.
    rewrite firstn_app, firstn_all, Nat.sub_diag, firstn_O, app_nil_r. rewrite skipn_app, skipn_all, Nat.sub_diag. cbn [app skipn].
    destruct rest as [|c rest].
    + rewrite app_nil_r in *. rewrite K2. eexists. split; [reflexivity|]. left. rewrite post_merge.
      rewrite app_nil_r, skipn_all2; [now rewrite app_nil_r|]. rewrite EQ, app_length. simpl. lia.
    + rewrite (K q (c :: rest) eq_refl). eexists. split; [reflexivity|]. left. rewrite post_merge. f_equal.
      cbn [app]. replace (q' ++ SP :: c :: rest) with (q ++ c :: rest) by (rewrite EQ, <- app_assoc; reflexivity).
      rewrite skipn_app, skipn_all, Nat.sub_diag. reflexivity.
  - rewrite app_length. destruct (length q <? length q + length rest) eqn:E2.
    + apply Nat.ltb_lt in E2. cbn [andb negb]. rewrite skipn_app, skipn_all, Nat.sub_diag. cbn [app skipn].
      destruct (span (fun c => negb (Ascii.eqb c SP)) rest) as [w r] eqn:SP1. pose proof SP1 as SP2. apply span_app in SP2. destruct SP2 as (ER & W & FR).
      assert (LR : length rest = length w + length r) by (rewrite ER; apply app_length).
      destruct r as [|x r].
      * rewrite app_nil_r in ER. subst w. replace (length q + length rest <? length q + length rest) with false by (symmetry; apply Nat.ltb_irrefl).
        rewrite (proj2 (Nat.ltb_ge _ _)) by lia. rewrite <- app_length, skipn_all. rewrite firstn_app, firstn_all, Nat.sub_diag, firstn_O, app_nil_r.
        rewrite K2. eexists. split; [reflexivity|]. left. rewrite post_merge, app_nil_r, skipn_app, skipn_all, Nat.sub_diag. reflexivity.
      * cbn [length] in LR. rewrite (proj2 (Nat.ltb_lt (length q + length w) _)) by lia.
        apply negb_false_iff in FR. apply Ascii.eqb_eq in FR. subst x.
        rewrite (proj2 (Nat.ltb_ge _ _)) by lia.
        assert (ET : q ++ rest = (q ++ w ++ [SP]) ++ r) by (rewrite ER, <- !app_assoc; reflexivity).
        assert (LA : S (length q + length w) = length (q ++ w ++ [SP])) by (rewrite !app_length; simpl; lia).
        assert (FA : firstn (length (q ++ w ++ [SP])) ((q ++ rest) ++ [NUL]) = q ++ w ++ [SP]).
        { rewrite ET, <- (app_assoc (q ++ w ++ [SP]) r [NUL]), firstn_app, firstn_all, Nat.sub_diag, firstn_O. apply app_nil_r. }
        assert (SA : skipn (length (q ++ w ++ [SP])) (q ++ rest) = r).
        { rewrite ET, skipn_app, skipn_all, Nat.sub_diag. reflexivity. }
        rewrite LA, FA, SA.
        destruct r as [|y r].
        -- assert (EQ2 : (q ++ w ++ [SP]) ++ SP :: END_OF_PREF_MARK = (q ++ rest) ++ SP :: END_OF_PREF_MARK) by (rewrite ET, app_nil_r; reflexivity).
           rewrite EQ2. rewrite K2. eexists. split; [reflexivity|]. right.
           rewrite post_merge, !app_nil_r. rewrite skipn_app, skipn_all, Nat.sub_diag. cbn [app skipn]. rewrite ER, <- app_assoc. reflexivity.
        -- rewrite (K (q ++ w ++ [SP]) (y :: r) ET).
           eexists. split; [reflexivity|]. left. rewrite post_merge, skipn_app, skipn_all, Nat.sub_diag. cbn [app skipn]. rewrite ER, <- ?app_assoc. reflexivity.
    + apply Nat.ltb_ge in E2. assert (rest = []) by (destruct rest; auto; simpl in E2; lia). subst rest. cbn [andb]. rewrite app_nil_r in *.
      rewrite (proj2 (Nat.ltb_ge _ _)) by (simpl; lia). rewrite skipn_all. rewrite firstn_app, firstn_all, Nat.sub_diag, firstn_O, app_nil_r.
      rewrite K2. eexists. split; [reflexivity|]. left. rewrite post_merge, app_nil_r, skipn_all. now rewrite app_nil_r.
Qed.

(** an empty prefix *)
Theorem identity_empty : forall e t, (forall s, e_post e s = s) -> t <> [] -> no_nul t ->
  robustObtainFinalOutput e [] [] [] t = Some (SP :: t).
Proof.
  intros e t HP NT NN. unfold robustObtainFinalOutput. rewrite !s2v_words. change (words is_blank []) with (@nil str).
  change (isPrefixStrVec [] (words is_blank t)) with true. cbn iota. unfold postprocWithCriticalError. cbn [lastPrefWordIsCategory length Nat.ltb Nat.leb andb end_in_trans].
  change (lastPrefWordIsCategory e []) with false. change (end_in_trans false [] t) with (0, @nil ascii). cbn iota.
  change (length t + 1 <? 0) with false. cbn [firstn skipn app]. destruct t as [|c t]; [congruence|].
  rewrite cstr_id, HP. 2:{ intros I. apply in_app_or in I. destruct I as [I|[I|I]]; [now apply mark_no_nul in I|discriminate|now apply NN]. }
  pose proof (find_mark [] (SP :: c :: t) 0 (fun H => H)) as F. cbn [app length Nat.add] in F. rewrite F.
  pose proof (skip_mark [] (SP :: c :: t)) as G. cbn [app length] in G. rewrite G. cbn [length Nat.ltb Nat.leb andb app]. rewrite post_merge. reflexivity.
Qed.
