(** Proofs about annotated source sentences. *)
From Coq Require Import Ascii String Arith List Bool Lia Sorted.
From Verif Require Import TextSpec TextModel TextProofs MetaModel MetaSpec.
Import ListNotations.
Open Scope nat_scope.
Local Notation seg := (nat * nat)%type.

(** ** tokenisation *)
Lemma tl_acc : forall fuel p s res, tokenize_loop fuel p s res = res ++ tokenize_loop fuel p s [].
Proof.
  induction fuel as [|f IH]; intros p s res; cbn [tokenize_loop]; [now rewrite app_nil_r|].
  destruct s as [|c r]; [now rewrite app_nil_r|]. destruct (xmlTag (c :: r)) as [[tag rest]|].
  - rewrite IH. symmetry. rewrite IH. destruct p as [p|].
    + destruct (Ascii.eqb p SP), (Ascii.eqb (hd NUL rest) SP); rewrite <- ?app_assoc; reflexivity.
    + destruct (Ascii.eqb (hd NUL rest) SP); rewrite <- ?app_assoc; reflexivity.
  - rewrite IH. symmetry. rewrite IH. cbn [app]. now rewrite <- app_assoc.
Qed.
Lemma tag_loop_len : forall s aux tag rest, tag_loop aux s = Some (tag, rest) -> length rest < length s.
Proof.
  induction s as [|c r IH]; intros aux tag rest E; cbn [tag_loop] in E; [discriminate|].
  destruct (Ascii.eqb c GT); [destruct (existsb _ _); [inversion E; subst; cbn; lia|discriminate]|].
  destruct (Ascii.eqb c SP); [discriminate|]. apply IH in E. cbn. lia.
Qed.
Lemma xmlTag_len : forall s tag rest, xmlTag s = Some (tag, rest) -> length rest < length s.
Proof. intros [|c r] tag rest E; cbn in E; [discriminate|]. destruct (Ascii.eqb c LT); [|discriminate]. apply tag_loop_len in E. cbn. lia. Qed.
Lemma tl_fuel : forall f g p s res, length s <= f -> length s <= g -> tokenize_loop f p s res = tokenize_loop g p s res.
Proof.
  induction f as [|f IH]; intros g p s res Lf Lg.
  - destruct s; [|cbn in Lf; lia]. destruct g; reflexivity.
  - destruct g as [|g]; [destruct s; [reflexivity|cbn in Lg; lia]|]. cbn [tokenize_loop]. destruct s as [|c r]; auto.
    destruct (xmlTag (c :: r)) as [[tag rest]|] eqn:X.
    + apply xmlTag_len in X. cbn in *. apply IH; lia.
    + cbn in *. apply IH; lia.
Qed.
Definition TK (p : option ascii) (s : str) : str := tokenize_loop (length s) p s [].
Definition isSPo (p : option ascii) : bool := match p with Some c => Ascii.eqb c SP | None => true end.
Lemma TK_tag : forall p s tag rest, xmlTag s = Some (tag, rest) ->
  TK p s = (if isSPo p then [] else [SP]) ++ tag ++ (if Ascii.eqb (hd NUL rest) SP then [] else [SP]) ++ TK (Some GT) rest.
Proof.
  intros p s tag rest X. unfold TK. destruct s as [|c r]; [discriminate|]. cbn [length tokenize_loop]. rewrite X.
  rewrite tl_acc. apply xmlTag_len in X. cbn in X. rewrite (tl_fuel (length r) (length rest)) by lia.
  destruct p as [p|]; cbn [isSPo].
  - destruct (Ascii.eqb p SP), (Ascii.eqb (hd NUL rest) SP); rewrite <- ?app_assoc; reflexivity.
  - destruct (Ascii.eqb (hd NUL rest) SP); rewrite <- ?app_assoc; reflexivity.
Qed.
Lemma TK_char : forall p c r, xmlTag (c :: r) = None -> TK p (c :: r) = c :: TK (Some c) r.
Proof. intros p c r X. unfold TK. cbn [length tokenize_loop]. rewrite X. rewrite tl_acc. reflexivity. Qed.
Lemma xmlTag_nolt : forall c r, c <> LT -> xmlTag (c :: r) = None.
Proof. intros c r H. cbn. destruct (Ascii.eqb_spec c LT); congruence. Qed.

Lemma TK_word : forall w p y, (forall c, In c w -> c <> LT) -> TK p (w ++ y) = w ++ TK (match rev w with c :: _ => Some c | [] => p end) y.
Proof.
  induction w as [|c w IH]; intros p y H; cbn [app rev]; auto.
  rewrite TK_char by (apply xmlTag_nolt, H; now left). f_equal. rewrite IH by (intros; apply H; now right).
  f_equal. f_equal. destruct (rev w); reflexivity.
Qed.
(** the tokens of [y], whatever precedes it *)
Definition toks_are (y : str) (R : list str) : Prop := forall p, words is_blank (TK p y) = R.
Definition sepstart (y : str) : Prop := y = [] \/ hd NUL y = SP \/ exists tag rest, xmlTag y = Some (tag, rest).
Lemma plain_nb : forall w, plain w -> forallb (fun c => negb (is_blank c)) w = true.
Proof. intros w [_ H]. apply forallb_forall. intros c I. destruct (H c I) as [B _]. change (is_blank c) with (blank c). now rewrite B. Qed.
Lemma sepstart_TK : forall c y, sepstart y -> is_blank c = false -> match TK (Some c) y with [] => True | d :: _ => is_blank d = true end.
Proof.
  intros c y [E|[E|(tag & rest & E)]] NB.
  - subst. exact I.
  - destruct y as [|d y]; [discriminate|]. cbn in E. subst. rewrite TK_char by (apply xmlTag_nolt; discriminate). reflexivity.
  - rewrite (TK_tag _ _ _ _ E). cbn [isSPo]. destruct (Ascii.eqb_spec c SP); [subst; discriminate|]. reflexivity.
Qed.
Lemma toks_word : forall w y R, plain w -> sepstart y -> toks_are y R -> toks_are (w ++ y) (w :: R).
Proof.
  intros w y R P S H p. pose proof (plain_nb w P) as NB. destruct P as [NE P]. rewrite TK_word by (intros c I; apply P; auto).
  destruct (rev w) as [|c l] eqn:E; [apply (f_equal (@rev _)) in E; rewrite rev_involutive in E; cbn in E; congruence|].
  rewrite words_token; [now rewrite H|auto|auto|]. apply sepstart_TK; auto. destruct (P c) as [B _]; [|exact B]. apply in_rev. rewrite E. now left.
Qed.
Lemma toks_tag : forall y tag rest R, xmlTag y = Some (tag, rest) -> tag <> [] -> forallb (fun c => negb (is_blank c)) tag = true ->
  toks_are rest R -> toks_are y (tag :: R).
Proof.
  intros y tag rest R X NE NB H p. rewrite (TK_tag _ _ _ _ X).
  assert (G : words is_blank (tag ++ (if Ascii.eqb (hd NUL rest) SP then [] else [SP]) ++ TK (Some GT) rest) = tag :: R).
  { destruct (Ascii.eqb_spec (hd NUL rest) SP) as [E|E]; cbn [app].
    - rewrite words_token; [now rewrite H|auto|auto|]. apply sepstart_TK; [now right; left|reflexivity].
    - rewrite words_token; [|auto|auto|reflexivity]. f_equal. rewrite words_sep by reflexivity. apply H. }
  destruct (isSPo p); cbn [app]; [exact G|]. rewrite words_sep by reflexivity. exact G.
Qed.
Lemma toks_sp : forall y R, toks_are y R -> toks_are (SP :: y) R.
Proof. intros y R H p. rewrite TK_char by (apply xmlTag_nolt; discriminate). rewrite words_sep by reflexivity. apply H. Qed.
Lemma toks_nil : toks_are [] [].
Proof. intro p. reflexivity. Qed.
Lemma toks_spaced : forall ws y R, Forall plain ws -> sepstart y -> toks_are y R -> toks_are (spaced ws ++ y) (ws ++ R).
Proof.
  induction ws as [|w ws IH]; intros y R F S H; auto. inversion F; subst. cbn [spaced]. destruct ws as [|w2 ws].
  - now apply toks_word.
  - rewrite <- !app_assoc. apply toks_word; auto; [right; left; reflexivity|]. apply toks_sp. now apply IH.
Qed.
Definition item_tokens (i : item) : list str :=
  match i with Word w => [w] | Phrase s t => startTag ANNOT :: startTag SRC :: s ++ endTag SRC :: startTag TRG :: t ++ endTag TRG :: [endTag ANNOT] end.
Ltac tagx tg := match goal with |- toks_are ?y _ => let rest := eval cbn in (skipn (length tg) y) in
  apply (toks_tag y tg rest); [reflexivity|discriminate|reflexivity|] end.
Lemma tag_annot : forall y R, toks_are y R -> toks_are (startTag ANNOT ++ y) (startTag ANNOT :: R).
Proof. intros. apply (toks_tag _ _ y); [reflexivity|discriminate|reflexivity|auto]. Qed.
Lemma tag_src : forall y R, toks_are y R -> toks_are (startTag SRC ++ y) (startTag SRC :: R).
Proof. intros. apply (toks_tag _ _ y); [reflexivity|discriminate|reflexivity|auto]. Qed.
Lemma tag_trg : forall y R, toks_are y R -> toks_are (startTag TRG ++ y) (startTag TRG :: R).
Proof. intros. apply (toks_tag _ _ y); [reflexivity|discriminate|reflexivity|auto]. Qed.
Lemma tag_eannot : forall y R, toks_are y R -> toks_are (endTag ANNOT ++ y) (endTag ANNOT :: R).
Proof. intros. apply (toks_tag _ _ y); [reflexivity|discriminate|reflexivity|auto]. Qed.
Lemma tag_esrc : forall y R, toks_are y R -> toks_are (endTag SRC ++ y) (endTag SRC :: R).
Proof. intros. apply (toks_tag _ _ y); [reflexivity|discriminate|reflexivity|auto]. Qed.
Lemma tag_etrg : forall y R, toks_are y R -> toks_are (endTag TRG ++ y) (endTag TRG :: R).
Proof. intros. apply (toks_tag _ _ y); [reflexivity|discriminate|reflexivity|auto]. Qed.
Lemma toks_item : forall i y R, good_item i -> sepstart y -> toks_are y R -> toks_are (item_text i ++ y) (item_tokens i ++ R).
Proof.
  intros [w|s t] y R G S H.
  - cbn [item_text item_tokens app]. now apply toks_word.
  - destruct G as (_ & _ & Fs & Ft). unfold item_text, item_tokens.
    change (T "<phr_pair_annot><src_segm>") with (startTag ANNOT ++ startTag SRC).
    change (T "</src_segm><trg_segm>") with (endTag SRC ++ startTag TRG).
    change (T "</trg_segm></phr_pair_annot>") with (endTag TRG ++ endTag ANNOT).
    rewrite <- !app_assoc. cbn [app]. rewrite <- !app_assoc. cbn [app]. rewrite <- !app_assoc. cbn [app].
    apply tag_annot, tag_src. apply toks_spaced; auto; [right; right; eexists; eexists; reflexivity|].
    apply tag_esrc, tag_trg. apply toks_spaced; auto; [right; right; eexists; eexists; reflexivity|].
    apply tag_etrg, tag_eannot. exact H.
Qed.
Lemma toks_annotated : forall is, Forall good_item is -> toks_are (annotated is) (flat_map item_tokens is).
Proof.
  unfold annotated. induction is as [|i is IH]; intro F; [apply toks_nil|]. inversion F; subst. cbn [map spaced flat_map].
  destruct is as [|i2 is].
  - cbn [map spaced flat_map]. rewrite <- (app_nil_r (item_text i)). apply toks_item; [auto|now left|apply toks_nil].
  - cbn [map]. apply toks_item; [auto|right; left; reflexivity|]. apply toks_sp. now apply IH.
Qed.

(** ** the scan *)
Lemma until_ok : forall stop ws r acc, ~ In stop ws -> until stop (ws ++ stop :: r) acc = Some (acc ++ ws, r).
Proof.
  induction ws as [|w ws IH]; intros r acc N; cbn [app until].
  - rewrite (proj2 (str_eqb_true _ _)) by auto. now rewrite app_nil_r.
  - destruct (str_eqb w stop) eqn:E; [apply str_eqb_true in E; subst; exfalso; apply N; now left|]. rewrite IH by (intro; apply N; now right).
    now rewrite <- app_assoc.
Qed.
Lemma until_inv : forall stop toks acc ws r, until stop toks acc = Some (ws, r) -> exists w, ws = acc ++ w /\ toks = w ++ stop :: r /\ ~ In stop w.
Proof.
  induction toks as [|t toks IH]; intros acc ws r E; cbn [until] in E; [discriminate|]. destruct (str_eqb t stop) eqn:Q.
  - inversion E; subst. apply str_eqb_true in Q. subst. exists []. rewrite app_nil_r. tauto.
  - apply IH in E. destruct E as (w & -> & -> & N). exists (t :: w). rewrite <- app_assoc. repeat split; auto.
    intros [X|X]; [subst; rewrite (proj2 (str_eqb_true _ _)) in Q by auto; discriminate|auto].
Qed.
Lemma cf_inv : forall toks s t r, constraintFound toks = Some (s, t, r) ->
  toks = item_tokens (Phrase s t) ++ r /\ s <> [] /\ t <> [].
Proof.
  intros toks s t r E. unfold constraintFound in E. destruct toks as [|t1 [|t2 toks]]; try discriminate.
  destruct (str_eqb t1 (startTag ANNOT)) eqn:E1; [|discriminate]. destruct (str_eqb t2 (startTag SRC)) eqn:E2; [|discriminate]. cbn [andb] in E.
  apply str_eqb_true in E1, E2. subst.
  destruct (until (endTag SRC) toks []) as [[src r1]|] eqn:U; [|discriminate]. apply until_inv in U. destruct U as (w & Ew & -> & _). cbn in Ew. subst w.
  destruct (Nat.eqb_spec (length src) 0); [discriminate|]. destruct r1 as [|t3 r1]; [discriminate|].
  destruct (str_eqb t3 (startTag TRG)) eqn:E3; [|discriminate]. apply str_eqb_true in E3. subst.
  destruct (until (endTag TRG) r1 []) as [[trg r2]|] eqn:U; [|discriminate]. apply until_inv in U. destruct U as (w & Ew & -> & _). cbn in Ew. subst w.
  destruct (Nat.eqb_spec (length trg) 0); [discriminate|]. destruct r2 as [|t4 r2]; [discriminate|].
  destruct (str_eqb t4 (endTag ANNOT)) eqn:E4; [|discriminate]. apply str_eqb_true in E4. inversion E; subst.
  split; [|split; intro; subst; cbn in *; congruence].
  unfold item_tokens. cbn [app]. rewrite <- !app_assoc. cbn [app]. rewrite <- !app_assoc. reflexivity.
Qed.
Lemma plain_not_tag : forall w t, plain w -> hd NUL t = LT -> w <> t.
Proof. intros w t [NE P] H E. subst. destruct t as [|c t]; [congruence|]. cbn in H. subst. destruct (P LT (or_introl eq_refl)) as [_ X]. now apply X. Qed.
Lemma plains_no_tag : forall ws t, Forall plain ws -> hd NUL t = LT -> ~ In t ws.
Proof. intros ws t F H I. rewrite Forall_forall in F. apply (plain_not_tag t t (F _ I) H); auto. Qed.
Lemma cf_phrase : forall s t r, good_item (Phrase s t) -> constraintFound (item_tokens (Phrase s t) ++ r) = Some (s, t, r).
Proof.
  intros s t r (Ns & Nt & Fs & Ft). unfold item_tokens. cbn [app]. rewrite <- !app_assoc. cbn [app]. rewrite <- !app_assoc. cbn [app].
  unfold constraintFound. rewrite !(proj2 (str_eqb_true _ _)) by auto. cbn [andb].
  rewrite until_ok by (apply plains_no_tag; auto). cbn [app].
  destruct (Nat.eqb_spec (length s) 0) as [E|_]; [destruct s; [congruence|discriminate]|].
  rewrite !(proj2 (str_eqb_true _ _)) by auto.
  rewrite until_ok by (apply plains_no_tag; auto). cbn [app].
  destruct (Nat.eqb_spec (length t) 0) as [E|_]; [destruct t; [congruence|discriminate]|].
  rewrite !(proj2 (str_eqb_true _ _)) by auto. reflexivity.
Qed.
Lemma cf_word : forall w r, plain w -> constraintFound (w :: r) = None.
Proof.
  intros w r P. unfold constraintFound. destruct r as [|t r]; auto.
  destruct (str_eqb w (startTag ANNOT)) eqn:E; auto. apply str_eqb_true in E. exfalso. revert E. now apply plain_not_tag.
Qed.
Definition keys_below (n : nat) (m : list (seg * list str)) : Prop := Forall (fun kv => snd (fst kv) <= n /\ fst (fst kv) <= n) m.
Lemma minsert_last : forall k v m, keys_below (fst k - 1) m -> 1 <= fst k -> minsert k v m = m ++ [(k, v)].
Proof.
  induction m as [|[k' v'] m IH]; intros B L; auto. inversion B; subst. cbn [fst] in *. cbn [minsert app].
  replace (seg_ltb k k') with false by (symmetry; unfold seg_ltb; destruct k, k'; cbn [fst snd] in *;
     destruct (Nat.ltb_spec n n1); [lia|]; destruct (Nat.eqb_spec n n1); [lia|reflexivity]).
  replace (seg_ltb k' k) with true by (symmetry; unfold seg_ltb; destruct k, k'; cbn [fst snd] in *; destruct (Nat.ltb_spec n1 n); [reflexivity|lia]).
  f_equal. now apply IH.
Qed.
Lemma keys_mono : forall n n' m, n <= n' -> keys_below n m -> keys_below n' m.
Proof. intros n n' m L. apply Forall_impl. intros a; lia. Qed.
Lemma item_tokens_len : forall i, 1 <= length (item_tokens i).
Proof. destruct i; cbn; lia. Qed.
Lemma scan_items : forall is fuel sent m, is <> [] -> Forall good_item is -> length (flat_map item_tokens is) < fuel ->
  keys_below (length sent) m ->
  scan fuel (flat_map item_tokens is) sent m = Some (sent ++ sentence is, m ++ marks (length sent) is).
Proof.
  induction is as [|i is IH]; intros fuel sent m NE F L B; [congruence|]. inversion F; subst. destruct fuel as [|f]; [cbn in L; lia|].
  cbn [flat_map sentence marks] in *. rewrite app_length in L. pose proof (item_tokens_len i) as LI.
  destruct i as [w|s t].
  - cbn [item_tokens app item_words] in *. cbn [scan]. rewrite cf_word by auto. destruct is as [|i2 is].
    + cbn [flat_map marks]. now rewrite app_nil_r.
    + destruct (flat_map item_tokens (i2 :: is)) as [|q qs] eqn:Q.
      { exfalso. cbn [flat_map] in Q. pose proof (item_tokens_len i2). destruct (item_tokens i2); cbn in *; [lia|discriminate]. }
      rewrite IH; [|congruence|auto|cbn [length] in *; lia|rewrite app_length; cbn; eapply keys_mono; [|eauto]; lia].
      unfold sentence. rewrite <- app_assoc, app_length. reflexivity.
  - cbn [scan]. rewrite cf_phrase by auto.
    assert (Ns : length s <> 0) by (destruct H1 as (Ns & _); destruct s; [congruence|cbn; lia]).
    rewrite minsert_last by (cbn [fst]; try lia; replace (length sent + 1 - 1) with (length sent) by lia; auto).
    replace (length sent + 1 + length s - 1) with (length sent + length s) by lia. cbn [item_words].
    destruct is as [|i2 is].
    + cbn [flat_map]. rewrite app_nil_r. cbn [marks]. reflexivity.
    + destruct (flat_map item_tokens (i2 :: is)) as [|q qs] eqn:Q.
      { exfalso. cbn [flat_map] in Q. pose proof (item_tokens_len i2). destruct (item_tokens i2); cbn in *; [lia|discriminate]. }
      rewrite IH; [|congruence|auto|cbn [length] in *; lia|].
      * unfold sentence. rewrite <- !app_assoc, app_length. reflexivity.
      * apply Forall_app. rewrite app_length. split; [eapply keys_mono; [|eauto]; lia|]. repeat constructor; cbn; lia.
Qed.
Theorem meta_roundtrip : forall is, is <> [] -> Forall good_item is -> obtainTransConstraints (annotated is) = Some (sentence is, marks 0 is).
Proof.
  intros is NE F. pose proof (toks_annotated is F None) as TA. unfold obtainTransConstraints.
  destruct (annotated is) as [|c r] eqn:A.
  - exfalso. cbn in TA. destruct is as [|i is]; [congruence|]. cbn [flat_map] in TA. pose proof (item_tokens_len i). destruct (item_tokens i); cbn in *; [lia|discriminate].
  - rewrite <- A in *. rewrite s2v_words. unfold tokenizeSrcSentence. fold (TK None (annotated is)). rewrite TA.
    rewrite scan_items; auto. constructor.
Qed.

(** ** any input *)
Lemma no_lt_tk : forall s p, (forall c, In c s -> c <> LT) -> TK p s = s.
Proof. intros s p H. rewrite <- (app_nil_r s) at 1. rewrite TK_word by auto. now rewrite app_nil_r. Qed.
Lemma scan_plain : forall ws fuel sent m, ws <> [] -> Forall (fun w => hd NUL w <> LT) ws -> length ws < fuel -> scan fuel ws sent m = Some (sent ++ ws, m).
Proof.
  induction ws as [|w ws IH]; intros fuel sent m NE F L; [congruence|]. destruct fuel as [|f]; [cbn in L; lia|]. inversion F; subst. cbn [scan].
  assert (C : constraintFound (w :: ws) = None).
  { unfold constraintFound. destruct ws; auto. destruct (str_eqb w (startTag ANNOT)) eqn:E; auto. apply str_eqb_true in E. subst. exfalso. now apply H1. }
  rewrite C. destruct ws as [|w2 ws]; auto. rewrite IH; auto; [now rewrite <- app_assoc|congruence|cbn in *; lia].
Qed.
Lemma seg_in_words : forall s w c, In w (words is_blank s) -> In c w -> In c s.
Proof.
  intros s w c H. unfold words in H. apply filter_In in H. destruct H as [H _]. revert w H.
  induction s as [|d s IH]; intros w H I; cbn [segments] in H.
  - destruct H as [H|[]]; subst. destruct I.
  - destruct (is_blank d).
    + destruct H as [H|H]; [subst; destruct I|]. right. eauto.
    + destruct (segments is_blank s) as [|g gs] eqn:Q.
      * destruct H as [H|[]]; subst. destruct I as [|[]]. now left.
      * destruct H as [H|H]; [subst; destruct I as [|I]; [now left|right; apply (IH g); [now left|auto]]|right; apply (IH w); [now right|auto]].
Qed.
Theorem meta_plain : forall raw, ~ In LT raw -> words blank raw <> [] -> obtainTransConstraints raw = Some (words blank raw, []).
Proof.
  intros raw N NE. unfold obtainTransConstraints. destruct raw as [|c r] eqn:A; [now contradiction NE|]. rewrite <- A in *. clear A.
  rewrite s2v_words. unfold tokenizeSrcSentence. fold (TK None raw). rewrite no_lt_tk by (intros d I E; subst; auto).
  change (words is_blank raw) with (words blank raw). rewrite scan_plain; auto.
  apply Forall_forall. intros w I E. destruct w as [|d w]; [discriminate|]. cbn in E. subst. apply N. eapply seg_in_words; [exact I|now left].
Qed.
(** the constraints found are ordered and lie in the sentence *)
Definition ordered (n : nat) (m : list (seg * list str)) : Prop :=
  Forall (fun kv => 1 <= fst (fst kv) <= snd (fst kv) /\ snd (fst kv) <= n /\ snd kv <> []) m /\
  StronglySorted (fun a b => snd (fst a) < fst (fst b)) m.
Lemma ordered_mono : forall n n' m, n <= n' -> ordered n m -> ordered n' m.
Proof. intros n n' m L [A B]. split; auto. eapply Forall_impl; [|exact A]. cbn. intros a; intuition lia. Qed.
Lemma ordered_below : forall n m, ordered n m -> keys_below n m.
Proof. intros n m [A _]. eapply Forall_impl; [|exact A]. cbn. lia. Qed.
Lemma ss_snoc : forall {A} (R : A -> A -> Prop) l x, StronglySorted R l -> Forall (fun y => R y x) l -> StronglySorted R (l ++ [x]).
Proof.
  induction l as [|a l IH]; intros x H F; [repeat constructor|]. inversion H; inversion F; subst. cbn. constructor; auto.
  apply Forall_app. split; auto.
Qed.
Lemma ordered_snoc : forall n l v m, ordered n m -> l <> 0 -> v <> [] -> ordered (n + l) (m ++ [((n + 1, n + l), v)]).
Proof.
  intros n l v m O L V. pose proof (ordered_below _ _ O) as B. destruct (ordered_mono n (n + l) m ltac:(lia) O) as [F S]. split.
  - apply Forall_app. split; auto. repeat constructor; cbn; auto; lia.
  - apply ss_snoc; auto. eapply Forall_impl; [|exact B]. cbn. lia.
Qed.
Lemma scan_ordered : forall fuel toks sent m sent' m', ordered (length sent) m -> scan fuel toks sent m = Some (sent', m') -> ordered (length sent') m'.
Proof.
  induction fuel as [|f IH]; intros toks sent m sent' m' O E; cbn [scan] in E; [discriminate|].
  destruct (constraintFound toks) as [[[s t] rest]|] eqn:C.
  - apply cf_inv in C. destruct C as (_ & Ns & Nt). assert (length s <> 0) by (destruct s; [congruence|cbn; lia]).
    rewrite minsert_last in E by (cbn [fst]; try lia; replace (length sent + 1 - 1) with (length sent) by lia; now apply ordered_below).
    replace (length sent + 1 + length s - 1) with (length sent + length s) in E by lia.
    assert (O' : ordered (length (sent ++ s)) (m ++ [((length sent + 1, length sent + length s), t)])) by (rewrite app_length; now apply ordered_snoc).
    destruct rest; [inversion E; subst; auto|eauto].
  - destruct toks as [|t rest]; [discriminate|].
    assert (O' : ordered (length (sent ++ [t])) m) by (rewrite app_length; eapply ordered_mono; [|eauto]; lia).
    destruct rest; [inversion E; subst; auto|eauto].
Qed.
Theorem meta_ordered : forall raw sent m, obtainTransConstraints raw = Some (sent, m) -> ordered (length sent) m.
Proof.
  intros raw sent m E. unfold obtainTransConstraints in E. destruct raw; [inversion E; subst; repeat constructor|]. rewrite s2v_words in E.
  eapply scan_ordered; [|exact E]. repeat constructor.
Qed.
(** totality *)
Lemma scan_total : forall fuel toks sent m, toks <> [] -> length toks < fuel -> exists r, scan fuel toks sent m = Some r.
Proof.
  induction fuel as [|f IH]; intros toks sent m NE L; [lia|]. cbn [scan].
  destruct (constraintFound toks) as [[[s t] rest]|] eqn:C.
  - apply cf_inv in C. destruct C as (-> & _). destruct rest as [|q rest]; [eauto|]. apply IH; [congruence|].
    rewrite app_length in L. pose proof (item_tokens_len (Phrase s t)). lia.
  - destruct toks as [|t rest]; [congruence|]. destruct rest; [eauto|]. apply IH; [congruence|cbn in *; lia].
Qed.
Lemma TK_words : forall n s p, length s <= n -> words is_blank s <> [] -> words is_blank (TK p s) <> [].
Proof.
  induction n as [|n IH]; intros s p L W.
  - destruct s; [auto|cbn in L; lia].
  - destruct s as [|c r]; [auto|]. destruct (xmlTag (c :: r)) as [[tag rest]|] eqn:X.
    + rewrite (TK_tag _ _ _ _ X).
      assert (HT : exists q, tag = LT :: q).
      { unfold xmlTag in X. destruct (Ascii.eqb c LT); [|discriminate]. clear - X.
        assert (G : forall r aux tag rest, tag_loop (LT :: aux) r = Some (tag, rest) -> exists q, tag = LT :: q).
        { induction r0 as [|d r0 IH]; intros aux tg rs E; cbn [tag_loop app] in E; [discriminate|].
          destruct (Ascii.eqb d GT); [destruct (existsb _ _); [inversion E; eauto|discriminate]|]. destruct (Ascii.eqb d SP); [discriminate|eauto]. }
        eapply G. exact X. }
      destruct HT as [q ->]. destruct (isSPo p); cbn [app]; rewrite ?words_sep by reflexivity;
      unfold words; cbn [segments]; change (is_blank LT) with false; cbn iota; destruct (segments is_blank _); cbn; discriminate.
    + rewrite TK_char by auto. destruct (is_blank c) eqn:B.
      * rewrite words_sep in * by auto. apply IH; [cbn in L; lia|auto].
      * unfold words. cbn [segments]. rewrite B. destruct (segments is_blank _); cbn; discriminate.
Qed.
Theorem meta_total : forall raw, words blank raw <> [] -> exists r, obtainTransConstraints raw = Some r.
Proof.
  intros raw W. unfold obtainTransConstraints. destruct raw as [|c r] eqn:A; [now contradiction W|]. rewrite <- A in *. clear A.
  rewrite s2v_words. unfold tokenizeSrcSentence. fold (TK None raw). apply scan_total; [|lia]. eapply TK_words; [apply Nat.le_refl|exact W].
Qed.
Lemma TK_blank : forall s p, forallb is_blank s = true -> words is_blank (TK p s) = [].
Proof.
  intros s p H. rewrite no_lt_tk; [now apply words_all_sep|]. intros c I E. subst. rewrite forallb_forall in H. specialize (H _ I). discriminate.
Qed.
Theorem meta_blank : forall raw, raw <> [] -> (forall c, In c raw -> blank c = true) -> obtainTransConstraints raw = None.
Proof.
  intros raw NE H. unfold obtainTransConstraints. destruct raw as [|c r] eqn:A; [congruence|]. rewrite <- A in *. clear A.
  rewrite s2v_words. unfold tokenizeSrcSentence. fold (TK None raw). rewrite TK_blank; [reflexivity|]. apply forallb_forall. exact H.
Qed.
