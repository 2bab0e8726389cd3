(** Interactive translation, the text side: C131 (merging), C132 (the typed prefix over a session), C133 (a neutral
    pre/post-processor), C134 (completion of the word being typed). *)
From Coq Require Import Ascii String Arith List Bool Lia.
From Verif Require Import TextSpec TextModel TextProofs CatSpec CatModel CatProofs.
Import ListNotations.

(** C131: merging the translator's answer with the prefix the user typed. *)
(** an answer that does not contain the prefix is dropped *)
Theorem C131_not_a_prefix : forall p t, ~ word_prefix (words blank p) (words blank t) -> robustMergeTransWithUserPref t p = Some p.
Proof. exact merge_other. Qed.
(** otherwise the merged text starts with the very characters of the prefix, blanks included *)
Theorem C131_keeps_prefix : forall p t, no_tab p -> no_tab t -> exists s, robustMergeTransWithUserPref t p = Some (p ++ s).
Proof. exact merge_keeps. Qed.
(** and it has exactly the words of the answer, if the last word of the prefix is still open or is a whole word of the answer *)
Theorem C131_same_words : forall p t, no_tab p -> no_tab t -> word_prefix (sp_words p) (sp_words t) ->
  (~ ends_blank p \/ exists r, sp_words t = sp_words p ++ r) ->
  exists s, robustMergeTransWithUserPref t p = Some (p ++ s) /\ sp_words (p ++ s) = sp_words t.
Proof. exact merge_same_words. Qed.
(** refuted: a completed word of the prefix that only begins a word of the answer is accepted, and splits that word *)
Theorem C131_split_word_refuted : forall u p t l q r, no_tab p -> no_tab t -> sp_words p = u ++ [l] -> sp_words t = u ++ (l ++ q) :: r ->
  q <> [] -> ends_blank p ->
  exists s, robustMergeTransWithUserPref t p = Some (p ++ s) /\ sp_words (p ++ s) = u ++ l :: q :: r.
Proof. exact merge_splits. Qed.
(** refuted: with a tab in the prefix the merged text does not start with the prefix *)
Theorem C131_tab_refuted : exists p t out, robustMergeTransWithUserPref t p = Some out /\ word_prefix (words blank p) (words blank t) /\
  ~ exists s, out = p ++ s.
Proof.
  exists (T "a" ++ [TAB] ++ T "b"), (T "a b c"), (T "abc"). split; [reflexivity|]. split.
  - right. exists [T "a"], (T "b"), [], [T "c"]. split; reflexivity.
  - intros [s E]. discriminate.
Qed.
Example C131_nonvacuous :
  robustMergeTransWithUserPref (T "the house is red") (T "the  ho") = Some (T "the  house is red") /\
  robustMergeTransWithUserPref (T "the house is red") (T " the house  ") = Some (T " the house  is red") /\
  robustMergeTransWithUserPref (T "the house is red") (T "the ho ") = Some (T "the ho use is red") /\
  robustMergeTransWithUserPref (T "a car") (T "the ho") = Some (T "the ho").
Proof. repeat split; reflexivity. Qed.

(** C132: whatever the translator, the pre/post-processor and the predictor answer at each call. *)
(** after any calls the prefix kept for the user is what the user has typed *)
Theorem C132_typed_prefix : forall m os tp' outs, (forall o e, In (o, e) os -> no_nul (op_text o)) ->
  cat_session m [] os = Some (tp', outs) -> tp' = typed (map fst os) /\ length outs = length os.
Proof. intros m os. exact (session_total m os []). Qed.
(** with pre/post-processing, every text shown starts with the prefix typed so far *)
Theorem C132_shown_prefix : forall os tp' outs, (forall o e, In (o, e) os -> no_nul (op_text o)) ->
  cat_session true [] os = Some (tp', outs) ->
  forall i o out, nth_error (map fst os) i = Some o -> prefix_of_op o = true -> nth_error outs i = Some out ->
  exists r, out = typed (firstn (S i) (map fst os)) ++ r.
Proof. intros os tp' outs N. apply (session_outputs true os [] tp' outs N). discriminate. Qed.
(** without it, the same provided there are no tabs *)
Theorem C132_shown_prefix_raw : forall os tp' outs, (forall o e, In (o, e) os -> no_nul (op_text o)) ->
  (forall o e, In (o, e) os -> no_tab (op_text o) /\ (forall h w, no_tab (e_pred e h w)) /\ forall p, no_tab (e_trans e p)) ->
  cat_session false [] os = Some (tp', outs) ->
  forall i o out, nth_error (map fst os) i = Some o -> prefix_of_op o = true -> nth_error outs i = Some out ->
  exists r, out = typed (firstn (S i) (map fst os)) ++ r.
Proof. intros os tp' outs N C. apply (session_outputs false os [] tp' outs N). intros _. split; [intros []|exact C]. Qed.
(** and each call is well defined if the pre-processor separates words by single spaces *)
Theorem C132_defined : forall m tp o e, no_nul (op_text o) ->
  (m = true -> prefix_of_op o = true -> no_tab (e_pre e (typed1 tp o)) /\ one_spaced (e_pre e (typed1 tp o))) ->
  exists out, cat_step m tp o e = Some (typed1 tp o, out).
Proof. exact step_defined. Qed.
(** refuted: otherwise characters beyond the end of the translation are read *)
Theorem C132_overread_refuted : exists e, (forall s, e_pre e s = s) /\ (forall s, e_post e s = s) /\
  e_trans e (T "a   ") = T "a" /\ cat_step true [] (OpSet (T "a   ")) e = None.
Proof.
  exists {| e_pre := fun s => s; e_post := fun s => s; e_iscat := fun _ => false; e_pred := fun _ _ => []; e_trans := fun _ => T "a" |}.
  repeat split; reflexivity.
Qed.
(** refuted: without pre/post-processing a tab that was typed is lost *)
Theorem C132_raw_tab_refuted : exists e out, e_trans e (T "a" ++ [TAB] ++ T "b ") = T "a b c" /\
  cat_step false [] (OpSet (T "a" ++ [TAB] ++ T "b ")) e = Some (T "a" ++ [TAB] ++ T "b ", out) /\ ~ exists r, out = T "a" ++ [TAB] ++ T "b " ++ r.
Proof.
  exists {| e_pre := fun s => s; e_post := fun s => s; e_iscat := fun _ => false; e_pred := fun _ _ => []; e_trans := fun _ => T "a b c" |}.
  exists (T "abc "). split; [reflexivity|]. split; [reflexivity|]. intros [r E]. discriminate.
Qed.
Example C132_nonvacuous :
  let e t := {| e_pre := fun s => s; e_post := fun s => s; e_iscat := fun _ => false; e_pred := fun _ _ => []; e_trans := fun _ => t |} in
  let os := [(OpStart, e (T "the house")); (OpSet (T "a"), e (T "a house")); (OpAdd (T " ho"), e (T "a home")); (OpSet (T "a h"), e (T "x")); (OpSet (T "my"), e (T "my house"))] in
  typed (map fst os) = T "my" /\
  cat_session true [] os = Some (T "my", [T "the house"; T "a house"; T "a home"; T "a h"; T "my house"]) /\
  cat_session false [] os = Some (T "my", [T "the house"; T "a house"; T "a home"; T "a h"; T "my house"]) /\
  one_spaced (T "a ho") /\ one_spaced (T "a ").
Proof.
  cbv zeta. split; [reflexivity|]. split; [reflexivity|]. split; [reflexivity|].
  split; [exists []; split; [now left|reflexivity]|exists [space]; split; [now right|reflexivity]].
Qed.

(** C133: with a pre/post-processor that changes nothing, setting a prefix of the translator's answer shows that answer,
    minus at most one blank at its end *)
Theorem C133_pass_through : forall e tp s rest, (forall x, e_pre e x = x) -> (forall x, e_post e x = x) -> (forall w, e_iscat e w = false) ->
  s <> [] -> no_nul (s ++ rest) -> ~ In "<"%char (s ++ rest) ->
  (forall x w, expandLastWord (e_pred e) s = Some (x, w) -> e_trans e x = s ++ rest /\ word_prefix (words blank x) (words blank (s ++ rest))) ->
  exists out, cat_step true tp (OpSet s) e = Some (s, out) /\ (s ++ rest = out \/ s ++ rest = out ++ [space]).
Proof.
  intros e tp s rest HP HQ HC NS NN NL HT. destruct (expand_total (e_pred e) s) as (x & w & EX & _). destruct (HT _ _ EX) as [E1 E2].
  assert (N : no_nul s) by (intros I; apply NN; apply in_or_app; auto).
  assert (IC : lastPrefWordIsCategory e s = false) by (unfold lastPrefWordIsCategory; destruct (_ && _); auto).
  destruct (identity_output e s rest (s ++ x) HQ IC NS NN NL E2) as (out & EO & D).
  assert (A : forall a b : str, a ++ b = s -> addStrToPrefAux true e a b = Some (s, out)).
  { intros a b E. unfold addStrToPrefAux. assert (E0 : match a with [] => b | _ => a ++ b end = s) by (destruct a; auto).
    cbv zeta. rewrite E0, HP, EX, E1, cstr_id, EO by exact NN. reflexivity. }
  exists out. split; [|exact D]. cbn [cat_step]. unfold setPref. rewrite !(cstr_id s N). destruct (isPrefix tp s) eqn:P.
  - apply isPrefix_spec in P. destruct P as [r P]. apply A. rewrite P, skipn_app, skipn_all, Nat.sub_diag. cbn [app skipn].
    rewrite cstr_id; [reflexivity|]. intros I. apply N. rewrite P. apply in_or_app. auto.
  - now apply A.
Qed.
(** refuted: with an empty prefix a blank is put in front of the answer *)
Theorem C133_empty_prefix_refuted : forall e t, (forall x, e_pre e x = x) -> (forall x, e_post e x = x) -> t <> [] -> no_nul t -> e_trans e [] = t ->
  cat_step true [] (OpSet []) e = Some ([], space :: t).
Proof.
  intros e t HP HQ NT NN ET. cbn [cat_step]. change (setPref true e [] []) with (addStrToPrefAux true e [] []). unfold addStrToPrefAux. rewrite HP.
  change (expandLastWord (e_pred e) []) with (@Some (str * str) ([], [])). cbv zeta iota. rewrite ET, cstr_id, identity_empty by auto. reflexivity.
Qed.
(** refuted: the mark the code puts after the prefix is not recognised if the answer's prefix contains it *)
Theorem C133_mark_refuted : exists e s rest, (forall x, e_pre e x = x) /\ (forall x, e_post e x = x) /\ e_trans e s = s ++ rest /\
  exists out, cat_step true [] (OpSet s) e = Some (s, out) /\ out <> s ++ rest /\ out ++ [space] <> s ++ rest.
Proof.
  exists {| e_pre := fun s => s; e_post := fun s => s; e_iscat := fun _ => false; e_pred := fun _ _ => []; e_trans := fun _ => T "a <END_OF_PREF_MARK> b c" |},
    (T "a <END_OF_PREF_MARK> b"), (T " c").
  split; [reflexivity|]. split; [reflexivity|]. split; [reflexivity|]. eexists. split; [vm_compute; reflexivity|]. split; intro H; vm_compute in H; discriminate H.
Qed.
Example C133_nonvacuous :
  let e t := {| e_pre := fun s => s; e_post := fun s => s; e_iscat := fun _ => false; e_pred := fun _ w => if str_eqb w (T "hou") then T "se" else []; e_trans := fun _ => t |} in
  expandLastWord (e_pred (e (T "the house is"))) (T "the hou") = Some (T "the house ", T "house") /\
  cat_step true [] (OpSet (T "the hou")) (e (T "the house is")) = Some (T "the hou", T "the house is") /\
  cat_step true [] (OpSet (T "the ")) (e (T "the house is")) = Some (T "the ", T "the house is") /\
  cat_step true [] (OpSet []) (e (T "the house is")) = Some ([], T " the house is").
Proof. repeat split; vm_compute; reflexivity. Qed.

(** C134: completing the word being typed. *)
(** a word is completed only once two of its letters are typed *)
Theorem C134_not_expanded : forall pred s, (s = [] \/ ends_blank s \/ exists w, last_word_is s w /\ length w = 1) ->
  exists w, expandLastWord pred s = Some (s, w).
Proof. exact expand_none. Qed.
(** then the predictor is asked for that word after (at most) the two words before it; its suffix and a blank are added *)
Theorem C134_expanded : forall pred s w v, no_tab s -> last_word_is s w -> 2 <= length w -> sp_words s = v ++ [w] ->
  expandLastWord pred s = Some (let suf := pred (skipn (length v - 2) v) w in
    s ++ (match suf with [] => [] | _ => suf ++ [space] end), w ++ pred (skipn (length v - 2) v) w).
Proof. exact expand_word. Qed.
Theorem C134_last_word : forall s w, last_word_is s w -> w <> [] -> exists v, sp_words s = v ++ [w].
Proof. exact last_word_words. Qed.
(** the part of a word still to be typed *)
Theorem C134_completion : forall u r, u <> [] -> getWordCompletion u (u ++ r) = r.
Proof. exact completion_prefix. Qed.
Theorem C134_no_completion : forall u c, (length c <= length u \/ u = [] \/ (exists x u' y c', u = x :: u' /\ c = y :: c' /\ x <> y)) ->
  getWordCompletion u c = [].
Proof. exact completion_other. Qed.
(** refuted: one shared first letter is enough, so a word that does not begin with what was typed "completes" it *)
Theorem C134_completion_refuted : forall x a b, length a < length b -> getWordCompletion (x :: a) (x :: b) = skipn (length a) b.
Proof. exact completion_first_char. Qed.
Example C134_nonvacuous :
  expandLastWord (fun h w => concat h ++ w) (T "in the big hou") = Some (T "in the big houthebighou ", T "houthebighou") /\
  last_word_is (T "in the big hou") (T "hou") /\ sp_words (T "in the big hou") = [T "in"; T "the"; T "big"] ++ [T "hou"] /\
  expandLastWord (fun h w => T "x") (T "in h") = Some (T "in h", T "h") /\
  getWordCompletion (T "ho") (T "house") = T "use" /\ getWordCompletion (T "ho") (T "hxyz") = T "yz".
Proof.
  split; [reflexivity|]. split; [|repeat split; reflexivity].
  split; [cbv; intuition discriminate|]. right. exists (T "in the big"). reflexivity.
Qed.

Print Assumptions C131_not_a_prefix.
Print Assumptions C131_keeps_prefix.
Print Assumptions C131_same_words.
Print Assumptions C131_split_word_refuted.
Print Assumptions C131_tab_refuted.
Print Assumptions C132_typed_prefix.
Print Assumptions C132_shown_prefix.
Print Assumptions C132_shown_prefix_raw.
Print Assumptions C132_defined.
Print Assumptions C132_overread_refuted.
Print Assumptions C132_raw_tab_refuted.
Print Assumptions C133_pass_through.
Print Assumptions C133_empty_prefix_refuted.
Print Assumptions C133_mark_refuted.
Print Assumptions C134_not_expanded.
Print Assumptions C134_expanded.
Print Assumptions C134_last_word.
Print Assumptions C134_completion.
Print Assumptions C134_no_completion.
Print Assumptions C134_completion_refuted.
