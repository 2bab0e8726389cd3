From Coq Require Import Ascii String Arith List Bool Lia.
From Verif Require Import TextSpec TextModel.
Import ListNotations.

(** ** span and segments *)
Lemma span_app : forall p s a b, span p s = (a, b) -> s = a ++ b /\ forallb p a = true /\ (match b with [] => True | c :: _ => p c = false end).
Proof.
  intros p. induction s as [|c s IH]; intros a b E; simpl in E; [inversion E; subst; auto|]. destruct (p c) eqn:P.
  - destruct (span p s) as [a' b'] eqn:S. inversion E; subst. destruct (IH a' b eq_refl) as (-> & F & B). simpl. rewrite P, F. auto.
  - inversion E; subst. simpl. auto.
Qed.
Lemma span_all : forall p a b, forallb p a = true -> (match b with [] => True | c :: _ => p c = false end) -> span p (a ++ b) = (a, b).
Proof.
  intros p. induction a as [|c a IH]; intros b F B; simpl.
  - destruct b as [|d b]; auto. simpl. now rewrite B.
  - simpl in F. apply andb_true_iff in F. destruct F as [F1 F2]. rewrite F1, IH; auto.
Qed.

Section WORDS.
Variable sep : ascii -> bool.
Lemma segments_ne : forall s, segments sep s <> [].
Proof. induction s as [|c s IH]; simpl; [congruence|]. destruct (sep c); [congruence|]. destruct (segments sep s); congruence. Qed.
Lemma words_sep : forall c s, sep c = true -> words sep (c :: s) = words sep s.
Proof. intros c s H. unfold words. simpl. now rewrite H. Qed.
Lemma words_seps : forall b s, forallb sep b = true -> words sep (b ++ s) = words sep s.
Proof. induction b as [|c b IH]; intros s F; auto. simpl in F. apply andb_true_iff in F. destruct F. simpl. rewrite words_sep; auto. Qed.
Lemma words_token : forall t s, t <> [] -> forallb (fun c => negb (sep c)) t = true -> (match s with [] => True | c :: _ => sep c = true end) ->
  words sep (t ++ s) = t :: words sep s.
Proof.
  intros t s NE F B.
  assert (G : segments sep (t ++ s) = match segments sep s with g :: gs => (t ++ g) :: gs | [] => [t] end).
  { clear NE. induction t as [|c t IH]; simpl; [destruct (segments sep s) eqn:E; [now apply segments_ne in E|reflexivity]|].
    simpl in F. apply andb_true_iff in F. destruct F as [F1 F2]. apply negb_true_iff in F1. rewrite F1, (IH F2).
    pose proof (segments_ne s). destruct (segments sep s); [congruence|reflexivity]. }
  unfold words. rewrite G. destruct s as [|c s].
  - simpl. rewrite app_nil_r. destruct t; [congruence|reflexivity].
  - simpl. rewrite B. simpl. rewrite app_nil_r. destruct t; [congruence|reflexivity].
Qed.
Lemma words_all_sep : forall b, forallb sep b = true -> words sep b = [].
Proof. intros b F. rewrite <- (app_nil_r b), words_seps by auto. reflexivity. Qed.

(** every word is non-empty and separator free *)
Lemma words_clean : forall s w, In w (words sep s) -> w <> [] /\ forallb (fun c => negb (sep c)) w = true.
Proof.
  intros s w H. unfold words in H. apply filter_In in H. destruct H as [H N]. split; [intro; subst; discriminate|].
  revert w H N. induction s as [|c s IH]; simpl; intros w H N.
  - destruct H as [<-|[]]. reflexivity.
  - destruct (sep c) eqn:E.
    + destruct H as [<-|H]; [reflexivity|auto].
    + destruct (segments sep s) as [|g gs] eqn:EG; [exfalso; now apply segments_ne in EG|].
      destruct H as [<-|H]; [|apply IH; simpl; auto]. simpl. rewrite E. simpl.
      destruct g; [reflexivity|]. apply IH; simpl; auto.
Qed.
End WORDS.

Lemma words_ext : forall p q s, (forall c, p c = q c) -> words p s = words q s.
Proof. intros p q s H. unfold words. f_equal. induction s as [|c s IH]; simpl; auto. rewrite H, IH. auto. Qed.

(** ** stringToStringVector *)
Lemma s2v_loop_ok : forall fuel s vs, length s < fuel -> s2v_loop fuel s vs = Some (vs ++ words is_blank s).
Proof.
  induction fuel as [|f IH]; intros s vs L; [lia|]. cbn [s2v_loop].
  destruct (span (fun c => negb (is_blank c)) s) as [aux s1] eqn:E1. apply span_app in E1. destruct E1 as (-> & F1 & B1).
  destruct (span is_blank s1) as [bl s2] eqn:E2. apply span_app in E2. destruct E2 as (-> & F2 & B2).
  rewrite !app_length in L.
  assert (W : words is_blank (aux ++ bl ++ s2) = (match aux with [] => [] | _ => [aux] end) ++ words is_blank s2).
  { destruct aux as [|a aux]; [simpl; now apply words_seps|]. rewrite words_token.
    - now rewrite words_seps. - congruence. - auto.
    - destruct (bl ++ s2); auto. now apply negb_false_iff in B1. }
  destruct s2 as [|c s2].
  - rewrite W. cbn [words segments filter nonempty]. rewrite app_nil_r. destruct aux; [now rewrite app_nil_r|reflexivity].
  - rewrite IH.
    + rewrite W. destruct aux; [reflexivity|]. now rewrite <- app_assoc.
    + destruct aux; [|simpl in *; lia]. destruct bl; [|simpl in *; lia]. simpl in *. apply negb_false_iff in B1. congruence.
Qed.
Theorem s2v_words : forall s, stringToStringVector s = Some (words is_blank s).
Proof. intro s. unfold stringToStringVector. now rewrite s2v_loop_ok by lia. Qed.

Lemma c2v_loop_ok : forall fuel s vs, length s < fuel -> c2v_loop fuel s vs = Some (vs ++ words (fun c => Ascii.eqb c SP) s).
Proof.
  induction fuel as [|f IH]; intros s vs L; [lia|]. destruct s as [|c0 s0]; [simpl; now rewrite app_nil_r|].
  set (s := c0 :: s0) in *. change (c2v_loop (S f) s vs) with
    (let (_, s1) := span (fun c => Ascii.eqb c SP) s in
     let (aux, s2) := span (fun c => negb (Ascii.eqb c SP)) s1 in
     c2v_loop f s2 (match aux with [] => vs | _ => vs ++ [aux] end)).
  destruct (span (fun c => Ascii.eqb c SP) s) as [bl s1] eqn:E1. apply span_app in E1. destruct E1 as (E1 & F1 & B1).
  destruct (span (fun c => negb (Ascii.eqb c SP)) s1) as [aux s2] eqn:E2. apply span_app in E2. destruct E2 as (-> & F2 & B2).
  assert (length s = length bl + (length aux + length s2)) as LS by (rewrite E1, !app_length; lia).
  rewrite E1. rewrite words_seps by auto.
  assert (W : words (fun c => Ascii.eqb c SP) (aux ++ s2) = (match aux with [] => [] | _ => [aux] end) ++ words (fun c => Ascii.eqb c SP) s2).
  { destruct aux as [|a aux]; auto. rewrite words_token; auto; [congruence|]. destruct s2; auto. now apply negb_false_iff in B2. }
  rewrite W. rewrite IH.
  - destruct aux; [reflexivity|]. now rewrite <- app_assoc.
  - destruct aux; [|simpl in *; lia]. destruct bl; [|simpl in *; lia]. exfalso. simpl in *.
    destruct s2; [discriminate|]. inversion E1; subst. rewrite B1 in B2. discriminate.
Qed.
Theorem c2v_words : forall s, charItemsToVector s = Some (words (fun c => Ascii.eqb c SP) s).
Proof. intro s. unfold charItemsToVector. now rewrite c2v_loop_ok by lia. Qed.

(** ** join *)
Lemma fold_join : forall v w, fold_left (fun r x => r ++ SP :: x) v w = w ++ concat (map (fun x => SP :: x) v).
Proof. induction v as [|x v IH]; intro w; simpl; [now rewrite app_nil_r|]. rewrite IH. now rewrite <- app_assoc. Qed.
Lemma words_join : forall sep, sep SP = true -> forall v, (forall w, In w v -> w <> [] /\ forallb (fun c => negb (sep c)) w = true) ->
  words sep (stringVectorToString v) = v.
Proof.
  intros sep HS v H. destruct v as [|w v]; [reflexivity|]. simpl. rewrite fold_join. revert w H.
  induction v as [|x v IH]; intros w H; simpl.
  - destruct (H w (or_introl eq_refl)) as [N F]. rewrite words_token; auto.
  - destruct (H w (or_introl eq_refl)) as [N F]. rewrite words_token; auto. f_equal.
    rewrite words_sep by auto. apply IH. intros; apply H; now right.
Qed.

(** ** awk fields *)
Section AWK.
Variable FS : ascii.
Notation isFS := (fun c => Ascii.eqb c FS).

(** scanning starts at the beginning of a word or at the end *)
Lemma nf_loop_ok : forall fuel s NF, length s <= fuel ->
  (forall w r, s = w ++ r -> w <> [] -> forallb (fun c => negb (isFS c)) w = true -> True) ->
  forall (open : bool), (open = true -> match s with [] => False | _ => True end) ->
  nf_loop FS fuel s NF = Some (NF + (match s with [] => 0 | c :: _ => if Ascii.eqb c FS then S (length (words isFS s)) else length (words isFS s) end)).
Proof.
  induction fuel as [|f IH]; intros s NF L _ o _.
  - destruct s; [simpl; f_equal; lia|simpl in L; lia].
  - destruct s as [|c r]; [simpl; f_equal; lia|]. cbn [nf_loop]. simpl in L.
    destruct (Ascii.eqb c FS) eqn:E.
    + destruct (span isFS (c :: r)) as [a b] eqn:SP1. pose proof SP1 as SP2. apply span_app in SP2. destruct SP2 as (EQ & F & B). simpl snd.
      assert (length b <= f). { apply (f_equal (@length _)) in EQ. rewrite app_length in EQ. simpl in EQ. destruct a; [|simpl in EQ; lia].
        simpl in EQ. exfalso. simpl in SP1. rewrite E in SP1. destruct (span isFS r); discriminate. }
      rewrite (IH b) with (open := false); auto; [|discriminate]. f_equal. rewrite EQ. rewrite words_seps by auto.
      destruct b as [|d b]; simpl; [lia|]. simpl in B. rewrite B. lia.
    + rewrite (IH r) with (open := false); auto; [|lia|discriminate]. f_equal.
      destruct r as [|d r].
      * assert (W : words isFS [c] = [[c]]) by (unfold words; simpl; rewrite E; reflexivity). rewrite W. simpl. lia.
      * destruct (Ascii.eqb d FS) eqn:E2.
        -- assert (W : words isFS ([c] ++ d :: r) = [c] :: words isFS (d :: r)) by (apply words_token; [congruence|simpl; now rewrite E|auto]).
           simpl app in W. rewrite W. simpl length. lia.
        -- f_equal. unfold words. cbn [segments]. rewrite E, E2. destruct (segments isFS r); reflexivity.
Qed.

Theorem get_NF_words : forall buf, get_NF FS buf = Some (length (words isFS buf)).
Proof.
  intros buf. unfold get_NF. destruct (span isFS buf) as [a b] eqn:S. apply span_app in S. destruct S as (-> & F & B). simpl snd.
  rewrite nf_loop_ok with (open := false); auto; [|rewrite app_length; lia|discriminate]. rewrite words_seps by auto. f_equal.
  destruct b as [|c b]; [reflexivity|]. rewrite B. reflexivity.
Qed.

Lemma rf_loop_ok : forall fuel n s k acc, length s <= fuel -> k <= n ->
  rf_loop FS fuel n s k acc = Some (match s with
    | [] => acc
    | c :: _ => if Ascii.eqb c FS then (if n =? k then acc else acc ++ nth (n - k - 1) (words isFS s) [])
                else (if n =? k then acc ++ nth 0 (words isFS s) [] else acc ++ nth (n - k) (words isFS s) []) end).
Proof.
  induction fuel as [|f IH]; intros n s k acc L K.
  - destruct s; [reflexivity|simpl in L; lia].
  - destruct s as [|c r]; [reflexivity|]. cbn [rf_loop]. simpl in L.
    destruct (Ascii.eqb c FS) eqn:E.
    + destruct (Nat.ltb_spec n (S k)) as [G|G].
      * rewrite (proj2 (Nat.eqb_eq n k)) by lia. reflexivity.
      * rewrite (proj2 (Nat.eqb_neq n k)) by lia.
        destruct (span isFS (c :: r)) as [a b] eqn:SP1. pose proof SP1 as SP2. apply span_app in SP2. destruct SP2 as (EQ & F & B). simpl snd.
        assert (length b <= f). { apply (f_equal (@length _)) in EQ. rewrite app_length in EQ. simpl in EQ. destruct a; [|simpl in EQ; lia].
          exfalso. simpl in SP1. rewrite E in SP1. destruct (span isFS r); discriminate. }
        rewrite IH by lia. rewrite EQ. rewrite words_seps by auto. f_equal. destruct b as [|d b].
        -- simpl. destruct (n - k - 1); now rewrite app_nil_r.
        -- rewrite B. replace (n - S k) with (n - k - 1) by lia. destruct (Nat.eqb_spec n (S k)); [|reflexivity].
           replace (n - k - 1) with 0 by lia. reflexivity.
    + destruct r as [|d r].
      * assert (W : words isFS [c] = [[c]]) by (unfold words; simpl; rewrite E; reflexivity). rewrite W.
        destruct (Nat.eqb_spec n k).
        -- subst. rewrite (proj2 (Nat.ltb_lt k (S k))) by lia. reflexivity.
        -- rewrite (proj2 (Nat.ltb_ge n k)) by lia. destruct f; cbn [rf_loop]; f_equal; destruct (n - k) as [|q] eqn:D; try lia; simpl; destruct q; now rewrite app_nil_r.
      * rewrite (proj2 (Nat.ltb_ge n k)) by lia. rewrite IH by (simpl in *; lia). f_equal.
        destruct (Ascii.eqb d FS) eqn:E2.
        -- assert (W : words isFS ([c] ++ d :: r) = [c] :: words isFS (d :: r)) by (apply words_token; [congruence|simpl; now rewrite E|auto]).
           simpl app in W. rewrite W. destruct (Nat.eqb_spec n k); [reflexivity|]. destruct (n - k) as [|q] eqn:D; [lia|]. simpl. now rewrite Nat.sub_0_r.
        -- assert (W : words isFS (c :: d :: r) = match words isFS (d :: r) with w :: ws => (c :: w) :: ws | [] => [] end).
           { unfold words. cbn [segments]. rewrite E, E2. destruct (segments isFS r); reflexivity. }
           assert (NE : words isFS (d :: r) <> []).
           { unfold words. cbn [segments]. rewrite E2. destruct (segments isFS r); discriminate. }
           rewrite W. destruct (words isFS (d :: r)) as [|w ws]; [congruence|].
           destruct (Nat.eqb_spec n k); [simpl; now rewrite <- app_assoc|]. destruct (n - k) eqn:D; [lia|]. reflexivity.
Qed.

Theorem dollar_words : forall buf k, dollar FS buf (S k) = Some (nth k (words isFS buf) []).
Proof.
  intros buf k. unfold dollar. rewrite get_NF_words. destruct (Nat.ltb_spec (length (words isFS buf)) (S k)) as [G|G].
  - now rewrite nth_overflow by lia.
  - unfold retrieveField. destruct (span isFS buf) as [a b] eqn:S. apply span_app in S. destruct S as (-> & F & B). simpl snd.
    rewrite rf_loop_ok by (rewrite ?app_length; lia). rewrite words_seps in * by auto. f_equal.
    destruct b as [|c b]; [simpl in G; lia|]. rewrite B. rewrite Nat.sub_0_r. destruct (Nat.eqb_spec k 0); [subst|]; reflexivity.
Qed.
End AWK.

(** ** reading lines *)
Definition good_line (l : str) : Prop := ~ In NL l /\ ~ In NUL l.
Lemma cstr_good : forall l, ~ In NUL l -> cstr l = l.
Proof.
  intros l H. unfold cstr. rewrite <- (app_nil_r l) at 1. rewrite span_all; auto.
  apply forallb_forall. intros c Hc. apply negb_true_iff, Ascii.eqb_neq. intros ->. auto.
Qed.
Lemma getln_line : forall l rest, good_line l -> getln (l ++ NL :: rest) = Some (l, rest).
Proof.
  intros l rest [H1 H2]. unfold getln.
  assert (E : span (fun c => negb (Ascii.eqb c NL)) (l ++ NL :: rest) = (l, NL :: rest)).
  { apply span_all; [|reflexivity]. apply forallb_forall. intros c Hc. apply negb_true_iff, Ascii.eqb_neq. intros ->. auto. }
  rewrite E. rewrite removelast_last, cstr_good by auto. destruct (l ++ NL :: rest) eqn:X; [destruct l; discriminate|reflexivity].
Qed.
Lemma getln_last : forall l c, good_line l -> c <> NL -> getln (l ++ [c]) = Some (l, []).
Proof.
  intros l c [H1 H2] Hc. unfold getln.
  assert (E : span (fun c => negb (Ascii.eqb c NL)) ((l ++ [c]) ++ []) = (l ++ [c], [])).
  { apply span_all; auto. apply forallb_forall. intros d Hd. apply negb_true_iff, Ascii.eqb_neq. intros ->. apply in_app_iff in Hd.
    destruct Hd as [Hd|[Hd|[]]]; auto. }
  rewrite app_nil_r in E. rewrite E. rewrite removelast_last, cstr_good by auto. destruct (l ++ [c]) eqn:X; [destruct l; discriminate|reflexivity].
Qed.
Definition file_of (ls : list str) : str := concat (map (fun l => l ++ [NL]) ls).
Lemma all_lines_ok : forall ls tail r fuel, Forall good_line ls -> length (file_of ls ++ tail) <= fuel ->
  (forall f, length tail <= f -> all_lines f tail = Some r) -> all_lines fuel (file_of ls ++ tail) = Some (ls ++ r).
Proof.
  induction ls as [|l ls IH]; intros tail r fuel G L H; [simpl; auto|].
  inversion G; subst. unfold file_of in *. simpl in *. rewrite <- !app_assoc in *. simpl in *.
  destruct fuel as [|f]; [rewrite !app_length in L; simpl in L; lia|]. cbn [all_lines]. rewrite getln_line by auto.
  rewrite (IH tail r); auto. rewrite !app_length in L. simpl in L. rewrite !app_length in *. lia.
Qed.
Theorem read_lines_ok : forall ls, Forall good_line ls -> read_lines (file_of ls) = Some ls.
Proof.
  intros ls G. unfold read_lines. rewrite <- (app_nil_r (file_of ls)) at 2. rewrite (all_lines_ok ls [] []); auto.
  - now rewrite app_nil_r. - now rewrite app_nil_r. - intros f _. destruct f; reflexivity.
Qed.
Theorem read_lines_unterminated : forall ls l c, Forall good_line ls -> good_line l -> c <> NL ->
  read_lines (file_of ls ++ l ++ [c]) = Some (ls ++ [l]).
Proof.
  intros ls l c G Gl Hc. unfold read_lines. apply all_lines_ok; auto. intros f Hf.
  destruct f as [|f]; [rewrite app_length in Hf; simpl in Hf; lia|]. cbn [all_lines]. rewrite getln_last by auto. destruct f; reflexivity.
Qed.

(** ** prefixes *)
Lemma isPrefix_spec : forall s1 s2, isPrefix s1 s2 = true <-> exists r, s2 = s1 ++ r.
Proof.
  intros s1 s2. unfold isPrefix. destruct (Nat.ltb_spec (length s2) (length s1)) as [L|L].
  - split; [discriminate|]. intros [r ->]. rewrite app_length in L. lia.
  - rewrite forallb_forall. split.
    + intro H. exists (skipn (length s1) s2). rewrite <- (firstn_skipn (length s1) s2) at 1. f_equal.
      apply nth_ext with (d := NUL) (d' := NUL); [rewrite firstn_length; lia|]. intros i Hi. rewrite firstn_length in Hi.
      assert (X := H i). rewrite in_seq in X. specialize (X ltac:(lia)). apply Ascii.eqb_eq in X. rewrite X.
      rewrite <- (firstn_skipn (length s1) s2) at 2. rewrite app_nth1; auto. rewrite firstn_length; lia.
    + intros [r ->] i Hi. apply in_seq in Hi. rewrite app_nth1 by lia. apply Ascii.eqb_refl.
Qed.
Lemma str_eqb_true : forall a b, str_eqb a b = true <-> a = b.
Proof. intros. unfold str_eqb. destruct (list_eq_dec ascii_dec a b); split; congruence. Qed.
Theorem isPrefixStrVec_spec : forall v1 v2, isPrefixStrVec v1 v2 = true <->
  v1 = [] \/ exists u l l' r p, v1 = u ++ [l] /\ v2 = u ++ [l'] ++ r /\ l' = l ++ p.
Proof.
  intros v1 v2. unfold isPrefixStrVec. destruct (Nat.ltb_spec (length v2) (length v1)) as [L|L].
  - split; [discriminate|]. intros [->|(u & l & l' & r & p & -> & -> & _)]; [simpl in L; lia|]. rewrite !app_length in L. simpl in L. lia.
  - rewrite forallb_forall. destruct v1 as [|w0 v0]; [split; auto; intros _ i []|].
    destruct (@exists_last _ (w0 :: v0)) as (u & l & E); [congruence|]. rewrite E in *. clear E w0 v0.
    rewrite app_length in *. simpl in L. split.
    + intro H. right.
      assert (HU : forall i, i < length u -> nth i u [] = nth i v2 []).
      { intros i Hi. specialize (H i). rewrite in_seq in H. simpl in H. specialize (H ltac:(lia)). rewrite app_nth1 in H by auto.
        destruct (str_eqb (nth i u []) (nth i v2 [])) eqn:E; [now apply str_eqb_true in E|].
        replace (length u + 1 - 1) with (length u) in H by lia. destruct (Nat.eqb_spec i (length u)); [lia|discriminate]. }
      assert (HL : exists p, nth (length u) v2 [] = l ++ p).
      { specialize (H (length u)). rewrite in_seq in H. simpl in H. specialize (H ltac:(lia)). rewrite app_nth2, Nat.sub_diag in H by lia. simpl in H.
        destruct (str_eqb l (nth (length u) v2 [])) eqn:E; [apply str_eqb_true in E; exists []; now rewrite app_nil_r|].
        replace (length u + 1 - 1) with (length u) in H by lia. rewrite Nat.eqb_refl in H. now apply isPrefix_spec in H. }
      destruct HL as [p HL]. exists u, l, (nth (length u) v2 []), (skipn (S (length u)) v2), p. split; auto. split; auto.
      rewrite <- (firstn_skipn (length u) v2) at 1. f_equal.
      * symmetry. apply nth_ext with (d := []) (d' := []); [rewrite firstn_length; lia|]. intros i Hi. rewrite (HU i Hi).
        rewrite <- (firstn_skipn (length u) v2) at 1. rewrite app_nth1; auto. rewrite firstn_length; lia.
      * assert (X : length u < length v2) by lia. clear - X. revert v2 X. generalize (length u) as n.
        induction n as [|n IH]; destruct v2 as [|z v2]; simpl; intro; try lia; auto. rewrite (IH v2) by lia. destruct v2; reflexivity.
    + intros [E|(u' & l0 & l' & r & p & E & E2 & E3)]; [destruct u; discriminate|]. apply app_inj_tail in E. destruct E; subst u' l0 v2 l'.
      intros i Hi. apply in_seq in Hi. simpl in Hi. destruct (Nat.eq_dec i (length u)) as [->|N].
      * rewrite !app_nth2, Nat.sub_diag by lia. simpl. destruct (str_eqb l (l ++ p)); auto.
        replace (length u + 1 - 1) with (length u) by lia. rewrite Nat.eqb_refl. apply isPrefix_spec. eauto.
      * rewrite !app_nth1 by lia. rewrite (proj2 (str_eqb_true _ _) eq_refl). auto.
Qed.

(** ** getLastWord *)
Lemma glw_skip_ok : forall b s c i, c <> SP -> i = length s + length b -> Forall (fun x => x = SP) b -> glw_skip (s ++ c :: b) i = length s.
Proof.
  induction b as [|x b IH] using rev_ind; intros s c i Hc E F.
  - simpl in E. rewrite Nat.add_0_r in E. subst i. destruct (length s) as [|n] eqn:L; [reflexivity|]. cbn [glw_skip].
    rewrite app_nth2 by lia. replace (S n - length s) with 0 by lia. simpl. now rewrite (proj2 (Ascii.eqb_neq _ _) Hc).
  - apply Forall_app in F. destruct F as [F1 F2]. inversion F2; subst. rewrite app_length in *. simpl.
    replace (length s + (length b + 1)) with (S (length s + length b)) by lia. cbn [glw_skip].
    replace (nth (S (length s + length b)) (s ++ c :: b ++ [SP]) NUL) with SP.
    + rewrite Ascii.eqb_refl. 
      assert (G : forall j, j <= length s + length b -> glw_skip (s ++ c :: b ++ [SP]) j = glw_skip (s ++ c :: b) j).
      { induction j as [|j IHj]; intro Hj; auto. cbn [glw_skip].
        replace (nth (S j) (s ++ c :: b ++ [SP]) NUL) with (nth (S j) (s ++ c :: b) NUL).
        - rewrite IHj by lia. reflexivity.
        - replace (s ++ c :: b ++ [SP]) with ((s ++ c :: b) ++ [SP]) by now rewrite <- app_assoc. rewrite (app_nth1 (s ++ c :: b)); [reflexivity|]. rewrite app_length. simpl. lia. }
      rewrite G by lia. apply IH; auto.
    + replace (s ++ c :: b ++ [SP]) with ((s ++ c :: b) ++ [SP]) by now rewrite <- app_assoc.
      rewrite (app_nth2 (s ++ c :: b)) by (rewrite app_length; simpl; lia). replace (S (length s + length b) - length (s ++ c :: b)) with 0 by (rewrite app_length; cbn [length]; lia). reflexivity.
Qed.
Lemma glw_take_pre : forall s t i r, i < length s -> glw_take (s ++ t) i r = glw_take s i r.
Proof.
  intros s t. induction i as [|i IH]; intros r H; auto. cbn [glw_take]. rewrite app_nth1 by auto. destruct (Ascii.eqb _ SP); auto. apply IH. lia.
Qed.
Lemma glw_take_ok : forall w u r, Forall (fun x => x <> SP) w -> w <> [] -> glw_take (u ++ SP :: w) (length u + length w) r = w ++ r.
Proof.
  induction w as [|x w IH] using rev_ind; intros u r F NE; [congruence|]. apply Forall_app in F. destruct F as [F1 F2]. inversion F2; subst.
  rewrite app_length. simpl. replace (length u + (length w + 1)) with (S (length u + length w)) by lia. cbn [glw_take].
  replace (u ++ SP :: w ++ [x]) with ((u ++ SP :: w) ++ [x]) by now rewrite <- app_assoc.
  rewrite (app_nth2 (u ++ SP :: w)) by (rewrite app_length; simpl; lia). replace (S (length u + length w) - length (u ++ SP :: w)) with 0 by (rewrite app_length; cbn [length]; lia). cbn [nth].
  rewrite (proj2 (Ascii.eqb_neq _ _) H1). rewrite glw_take_pre by (rewrite app_length; simpl; lia).
  destruct w as [|y w].
  - simpl. rewrite Nat.add_0_r. destruct (length u) as [|n] eqn:L; [reflexivity|]. cbn [glw_take].
    rewrite app_nth2 by lia. replace (S n - length u) with 0 by lia. simpl. reflexivity.
  - rewrite IH by (auto; congruence). now rewrite <- app_assoc.
Qed.
Theorem getLastWord_after_blank : forall u w b, w <> [] -> Forall (fun x => x <> SP) w -> Forall (fun x => x = SP) b ->
  getLastWord (u ++ SP :: w ++ b) = w.
Proof.
  intros u w b NE Fw Fb. destruct (@exists_last _ w NE) as (w' & c & ->). apply Forall_app in Fw. destruct Fw as [F1 F2]. inversion F2; subst.
  unfold getLastWord. destruct (u ++ SP :: (w' ++ [c]) ++ b) eqn:E; [destruct u; discriminate|]. rewrite <- E. clear E a l.
  replace (u ++ SP :: (w' ++ [c]) ++ b) with ((u ++ SP :: w') ++ c :: b) by (rewrite <- !app_assoc; reflexivity).
  rewrite glw_skip_ok; auto; [|rewrite !app_length; simpl; lia].
  replace ((u ++ SP :: w') ++ c :: b) with ((u ++ SP :: w' ++ [c]) ++ b) by (rewrite <- !app_assoc; simpl; rewrite <- ?app_assoc; reflexivity).
  rewrite glw_take_pre by (rewrite !app_length; simpl; rewrite app_length; simpl; lia).
  replace (length (u ++ SP :: w')) with (length u + length (w' ++ [c])) by (rewrite !app_length; simpl; lia).
  rewrite glw_take_ok; [apply app_nil_r| |destruct w'; discriminate]. apply Forall_app; auto.
Qed.
Lemma glw_take_first : forall w s r, Forall (fun x => x <> SP) w -> glw_take (s :: w) (length w) r = w ++ r.
Proof.
  induction w as [|x w IH] using rev_ind; intros s r F; [reflexivity|]. apply Forall_app in F. destruct F as [F1 F2]. inversion F2; subst.
  rewrite app_length. simpl. replace (length w + 1) with (S (length w)) by lia. cbn [glw_take].
  replace (nth (S (length w)) (s :: w ++ [x]) NUL) with x by (simpl; rewrite app_nth2, Nat.sub_diag by lia; reflexivity).
  rewrite (proj2 (Ascii.eqb_neq _ _) H1). change (s :: w ++ [x]) with ((s :: w) ++ [x]). rewrite glw_take_pre by (simpl; lia).
  rewrite IH by auto. now rewrite <- app_assoc.
Qed.
Theorem getLastWord_single : forall c w b, Forall (fun x => x <> SP) (c :: w) -> Forall (fun x => x = SP) b -> getLastWord (c :: w ++ b) = w.
Proof.
  intros c w b F Fb. unfold getLastWord. inversion F; subst. destruct w as [|x0 w0].
  - simpl app. change (c :: b) with ([] ++ c :: b). rewrite glw_skip_ok; auto. simpl. lia.
  - destruct (@exists_last _ (x0 :: w0)) as (w' & x & E); [congruence|]. rewrite E in *. clear E x0 w0.
    apply Forall_app in H2. destruct H2 as [G1 G2]. inversion G2; subst.
    replace (c :: (w' ++ [x]) ++ b) with ((c :: w') ++ x :: b) by (rewrite <- app_assoc; reflexivity).
    rewrite glw_skip_ok; auto; [|rewrite !app_length; simpl; lia].
    replace ((c :: w') ++ x :: b) with ((c :: w' ++ [x]) ++ b) by (simpl; rewrite <- app_assoc; reflexivity).
    rewrite glw_take_pre by (simpl; rewrite app_length; simpl; lia).
    replace (length (c :: w')) with (length (w' ++ [x])) by (rewrite app_length; simpl; lia).
    rewrite glw_take_first; [apply app_nil_r|]. apply Forall_app; auto.
Qed.

Lemma blank_tail : forall s, (lastCharIsBlank s = true <-> exists u, s = u ++ [SP]) /\
  (forall u, removeLastBlank (u ++ [SP]) = u) /\ (~ (exists u, s = u ++ [SP]) -> removeLastBlank s = s) /\ removeLastBlank (addBlank s) = s.
Proof.
  assert (A : forall u, lastCharIsBlank (u ++ [SP]) = true).
  { intros u. unfold lastCharIsBlank. rewrite app_length. simpl. rewrite (proj2 (Nat.ltb_lt 0 (length u + 1))) by lia. simpl.
    rewrite app_nth2 by lia. replace (length u + 1 - 1 - length u) with 0 by lia. reflexivity. }
  assert (B : forall u, removeLastBlank (u ++ [SP]) = u).
  { intros u. unfold removeLastBlank. rewrite A. rewrite app_length. simpl. replace (length u + 1 - 1) with (length u + 0) by lia.
    rewrite firstn_app_2. simpl. now rewrite app_nil_r. }
  intro s. assert (C : lastCharIsBlank s = true <-> exists u, s = u ++ [SP]).
  { split; [|intros [u ->]; apply A]. unfold lastCharIsBlank. intro H. apply andb_true_iff in H. destruct H as [H1 H2]. apply Nat.ltb_lt in H1.
    destruct (@exists_last _ s) as (u & c & ->); [destruct s; [simpl in H1; lia|congruence]|]. exists u. rewrite app_length in H2. simpl in H2.
    rewrite app_nth2 in H2 by lia. replace (length u + 1 - 1 - length u) with 0 in H2 by lia. apply Ascii.eqb_eq in H2. simpl in H2. now subst. }
  repeat split; auto; try apply C.
  - intro N. unfold removeLastBlank. destruct (lastCharIsBlank s) eqn:E; auto. exfalso. apply N. now apply C.
  - apply B.
Qed.
Lemma join_split : forall v, (forall w, In w v -> w <> [] /\ forallb (fun c => negb (is_blank c)) w = true) ->
  stringToStringVector (stringVectorToString v) = Some v.
Proof. intros v H. rewrite s2v_words. f_equal. apply words_join; auto. Qed.
Lemma split_clean : forall s v, stringToStringVector s = Some v -> forall w, In w v -> w <> [] /\ forallb (fun c => negb (is_blank c)) w = true.
Proof. intros s v E w H. rewrite s2v_words in E. inversion E; subst. eapply words_clean; eauto. Qed.
Lemma dollar_zero : forall FS buf, dollar FS buf 0 = Some buf.
Proof. reflexivity. Qed.
