(** Proofs about JSON source sentences. *)
From Coq Require Import Ascii String Arith List Bool Lia Sorted.
From Verif Require Import DecSpec TextSpec TextModel TextProofs MetaModel MetaProofs JsonModel JsonSpec.
Import ListNotations.
Open Scope nat_scope.
Local Notation seg := (nat * nat)%type.

Lemma s2v_jwords : forall s, stringToStringVector s = Some (jwords s).
Proof. intro s. exact (s2v_words s). Qed.
Lemma str_eqb_spec : forall a b, reflect (a = b) (str_eqb a b).
Proof. intros. unfold str_eqb. destruct (list_eq_dec ascii_dec a b); constructor; auto. Qed.

Fixpoint cmpl (s phrase : list str) {struct phrase} : outcome bool :=
  match phrase with
  | [] => Done true
  | w :: r => match s with [] => Undef | v :: s' => if str_eqb v w then cmpl s' r else Done false end
  end.
Lemma skipn_S_tl : forall {A} n (l : list A), skipn (S n) l = tl (skipn n l).
Proof. induction n as [|n IH]; intros [|a l]; auto. cbn [skipn]. rewrite <- IH. destruct l; auto. Qed.
Lemma nth_error_skipn : forall {A} n (l : list A), nth_error l n = match skipn n l with [] => None | a :: _ => Some a end.
Proof. induction n as [|n IH]; intros [|a l]; auto. cbn. apply IH. Qed.
Lemma cmp_cmpl : forall sent phrase pos, cmp_loop sent pos phrase = cmpl (skipn pos sent) phrase.
Proof.
  induction phrase as [|w r IH]; intro pos; auto. cbn [cmp_loop cmpl]. rewrite nth_error_skipn.
  rewrite IH, Nat.add_1_r, skipn_S_tl. now destruct (skipn pos sent).
Qed.
Lemma cmpl_spec : forall phrase s,
  match cmpl s phrase with
  | Done true => exists rest, s = phrase ++ rest
  | Done false => forall rest, s <> phrase ++ rest
  | Undef => exists w r, phrase = s ++ w :: r
  | Throws => False
  end.
Proof.
  induction phrase as [|w r IH]; intro s; cbn [cmpl]; [now exists s|].
  destruct s as [|v s]; [now exists w, r|]. destruct (str_eqb_spec v w) as [->|N].
  - specialize (IH s). destruct (cmpl s r) as [| |[|]]; auto.
    + destruct IH as (a & b & ->). now exists a, b.
    + destruct IH as (a & ->). now exists a.
    + intros rest E. injection E as E. eapply IH; eauto.
  - intros rest E. injection E as E1 E2. congruence.
Qed.
Lemma occurs_skipn : forall sent p k, k <= length sent -> occurs_at sent p k <-> exists rest, skipn k sent = p ++ rest.
Proof.
  intros sent p k L. split.
  - intros (pre & rest & -> & <-). exists rest. rewrite skipn_app, skipn_all, Nat.sub_diag. reflexivity.
  - intros (rest & E). exists (firstn k sent), rest. split; [rewrite <- E; symmetry; apply firstn_skipn|apply firstn_length_le; lia].
Qed.
Lemma occurs_le : forall sent p k, occurs_at sent p k -> k + length p <= length sent.
Proof. intros sent p k (pre & rest & -> & <-). rewrite !app_length. lia. Qed.
Lemma isPhrase_spec : forall sent p i, p <> [] -> i < length sent ->
  match isPhraseInSentence sent p i with
  | Done true => occurs_at sent p i
  | Done false => ~ occurs_at sent p i
  | Undef => cut_off sent p /\ ~ occurs_at sent p i /\ i + length p = length sent + 1
  | Throws => False
  end.
Proof.
  intros sent p i NE L. unfold isPhraseInSentence. destruct p as [|w p]; [congruence|]. set (q := w :: p) in *.
  destruct (Nat.ltb_spec (length sent) (i + length q - 1)) as [X|X].
  - intro O. apply occurs_le in O. lia.
  - rewrite cmp_cmpl. generalize (cmpl_spec q (skipn i sent)).
    assert (LS : length (skipn i sent) = length sent - i) by apply skipn_length.
    destruct (cmpl (skipn i sent) q) as [| |[|]]; auto.
    + intros (a & r & E). assert (LL := f_equal (@length _) E). rewrite app_length in LL. cbn [length] in LL. assert (r = []) as ->. { destruct r; auto. exfalso. cbn [length] in LL. lia. }
      assert (LQ : i + length q = length sent + 1) by (cbn [length] in LL; lia).
      split; [|split; auto].
      * exists (firstn i sent), a, (skipn i sent). repeat split; auto; [symmetry; apply firstn_skipn|]. intro N. rewrite N in LS. cbn in LS. lia.
      * intro O. apply occurs_le in O. lia.
    + intros R. apply occurs_skipn; [lia|auto].
    + intros R O. apply occurs_skipn in O; [|lia]. destruct O as [rest O]. exact (R rest O).
Qed.
Lemma assigned_step : forall sent i trs l, assigned sent (S i) trs l -> (forall p t r, trs = (p, t) :: r -> ~ occurs_at sent p i) -> assigned sent i trs l.
Proof.
  intros sent i trs l A N. inversion A as [|f p t r k l' LK O F A'|f p t r F]; subst.
  - constructor.
  - econstructor; eauto; [lia|]. intros k' R. destruct (Nat.eq_dec k' i) as [->|]; [eapply N; eauto|apply F; lia].
  - constructor. intros k R. destruct (Nat.eq_dec k i) as [->|]; [eapply N; eauto|apply F; lia].
Qed.
Definition wpair (ot : str * str) : list str * list str := (jwords (fst ot), jwords (snd ot)).
Definition goodp (ot : str * str) : Prop := jwords (fst ot) <> [] /\ jwords (snd ot) <> [].

Lemma add_loop_spec : forall sent fuel i trs m, length sent - i + length trs < fuel -> Forall goodp trs -> keys_below i m ->
  match add_loop fuel sent i trs m with
  | Done r => exists l, r = m ++ l /\ assigned sent i (map wpair trs) l
  | Undef => exists ot, In ot trs /\ cut_off sent (jwords (fst ot))
  | Throws => False
  end.
Proof.
  induction fuel as [|f IH]; intros i trs m LF G K; [lia|]. cbn [add_loop].
  destruct (Nat.ltb_spec i (length sent)) as [L|L]; cbn [negb].
  - destruct trs as [|[o t] rest]; [exists []; rewrite app_nil_r; split; [auto|constructor]|].
    rewrite !s2v_jwords. cbn [of_opt bind]. inversion G as [|? ? [Go Gt] G']; subst. cbn [fst snd] in *.
    generalize (isPhrase_spec sent (jwords o) i Go L). destruct (isPhraseInSentence sent (jwords o) i) as [| |[|]]; cbn [bind]; intro P.
    + exists (o, t). cbn. split; [auto|apply P].
    + contradiction.
    + rewrite minsert_last by (cbn [fst]; try lia; replace (i + 1 - 1) with i by lia; auto).
      assert (0 < length (jwords o)) by (destruct (jwords o); [congruence|cbn; lia]).
      specialize (IH (i + length (jwords o)) rest (m ++ [((i + 1, i + length (jwords o)), jwords t)])).
      destruct (add_loop f sent (i + length (jwords o)) rest (m ++ [((i + 1, i + length (jwords o)), jwords t)])).
      * destruct IH as (ot & I & C); [cbn [length] in LF; lia|auto| |exists ot; cbn; auto].
        apply Forall_app. split; [eapply keys_mono; [|eauto]; lia|]. repeat constructor; cbn; lia.
      * apply IH; [cbn [length] in LF; lia|auto|]. apply Forall_app. split; [eapply keys_mono; [|eauto]; lia|]. repeat constructor; cbn; lia.
      * destruct IH as (l & -> & A); [cbn [length] in LF; lia|auto| |].
        { apply Forall_app. split; [eapply keys_mono; [|eauto]; lia|]. repeat constructor; cbn; lia. }
        exists (((i + 1, i + length (jwords o)), jwords t) :: l). split; [now rewrite <- app_assoc|]. cbn [map]. unfold wpair at 1. cbn [fst snd].
        eapply (as_put sent i (jwords o) (jwords t) (map wpair rest) i l); eauto. lia.
    + specialize (IH (S i) ((o, t) :: rest) m). cbn [length] in *.
      destruct (add_loop f sent (S i) ((o, t) :: rest) m).
      * apply IH; [lia|auto|eapply keys_mono; [|eauto]; lia].
      * apply IH; [lia|auto|eapply keys_mono; [|eauto]; lia].
      * destruct IH as (l & -> & A); [lia|auto|eapply keys_mono; [|eauto]; lia|]. exists l. split; auto. apply assigned_step; auto.
        intros p t0 r E. cbn [map] in E. injection E as <- _ _. exact P.
  - exists []. rewrite app_nil_r. split; auto. destruct trs as [|[o t] rest]; [constructor|]. cbn [map]. unfold wpair at 1. cbn [fst snd]. constructor.
    intros k LK O. apply occurs_le in O. inversion G as [|? ? [Go Gt] G']; subst. cbn [fst] in Go. destruct (jwords o); [congruence|cbn in O; lia].
Qed.
Lemma in_order_app : forall s g ps, in_order s ps -> in_order (g ++ s) ps.
Proof. intros s g [|p r] H; auto. destruct H as (gap & rest & -> & H). exists (g ++ gap), rest. split; auto. now rewrite <- app_assoc. Qed.
Lemma skipn_add : forall {A} b a (l : list A), skipn (a + b) l = skipn b (skipn a l).
Proof. intros A b. induction a as [|a IH]; intros [|x l]; cbn; auto. now destruct b. Qed.
Lemma add_loop_complete : forall sent fuel i trs m, length sent - i + length trs < fuel -> Forall goodp trs ->
  in_order (skipn i sent) (map (fun ot => jwords (fst ot)) trs) -> add_loop fuel sent i trs m <> Undef.
Proof.
  induction fuel as [|f IH]; intros i trs m LF G O; [lia|]. cbn [add_loop].
  destruct (Nat.ltb_spec i (length sent)) as [L|L]; cbn [negb]; [|discriminate].
  destruct trs as [|[o t] rest]; [discriminate|].
  rewrite !s2v_jwords. cbn [of_opt bind]. inversion G as [|? ? [Go Gt] G']; subst. cbn [fst snd] in *.
  cbn [map in_order fst] in O. destruct O as (gap & tail & E & O).
  assert (LE : length sent - i = length gap + (length (jwords o) + length tail)).
  { rewrite <- !app_length, <- E. symmetry. apply skipn_length. }
  generalize (isPhrase_spec sent (jwords o) i Go L). destruct (isPhraseInSentence sent (jwords o) i) as [| |[|]]; cbn [bind]; intro P.
  - lia.
  - contradiction.
  - apply IH; [cbn [length] in LF; lia|auto|]. rewrite skipn_add, E, app_assoc, skipn_app, app_length.
    replace (length (jwords o) - _) with 0 by lia. cbn [skipn]. now apply in_order_app.
  - destruct gap as [|g gap].
    + exfalso. apply P. apply occurs_skipn; [lia|]. exists tail. exact E.
    + apply IH; [cbn [length] in *; lia|auto|]. rewrite skipn_S_tl, E. cbn [tl app map in_order fst]. exists gap, tail. auto.
Qed.
Lemma assigned_full : forall sent from trs l, assigned sent from trs l -> (forall p t, In (p, t) trs -> p <> []) ->
  in_order (skipn from sent) (map fst trs) -> map snd l = map snd trs.
Proof.
  intros sent from trs l A. induction A as [from|from p t r k l LK O F A IH|from p t r F]; intros NE I; auto.
  - cbn [map]. f_equal. apply IH; [intros; eapply NE; right; eauto|].
    cbn [map in_order fst] in I. destruct I as (gap & tail & E & I).
    assert (OL := occurs_le _ _ _ O).
    assert (LE : length sent - from = length gap + (length p + length tail)) by (rewrite <- !app_length, <- E; symmetry; apply skipn_length).
    assert (KG : k <= from + length gap).
    { destruct (le_lt_dec k (from + length gap)); auto. exfalso. apply (F (from + length gap)); [lia|]. apply occurs_skipn; [lia|].
      exists tail. rewrite skipn_add, E, skipn_app, skipn_all, Nat.sub_diag. reflexivity. }
    replace (k + length p) with (from + (k - from + length p)) by lia.
    rewrite skipn_add, E, app_assoc, skipn_app, app_length.
    replace (k - from + length p - (length gap + length p)) with 0 by lia. cbn [skipn]. now apply in_order_app.
  - exfalso. cbn [map in_order fst] in I. destruct I as (gap & tail & E & I).
    assert (NEp := NE p t (or_introl eq_refl)).
    assert (LE : length sent - from = length gap + (length p + length tail)) by (rewrite <- !app_length, <- E; symmetry; apply skipn_length).
    assert (0 < length p) by (destruct p; [congruence|cbn; lia]).
    apply (F (from + length gap)); [lia|]. apply occurs_skipn; [lia|].
    exists tail. rewrite skipn_add, E, skipn_app, skipn_all, Nat.sub_diag. reflexivity.
Qed.

(** ** the tags *)
Lemma segments_blank : forall s, forallb jblank s = true -> jwords s = [].
Proof.
  intros s H. unfold jwords, words. enough (E : forall x, In x (segments jblank s) -> x = []).
  { induction (segments jblank s) as [|x r IH]; auto. cbn. rewrite (E x) by (now left). cbn. apply IH. intros; apply E; now right. }
  induction s as [|c r IH]; cbn; [intros x [<-|[]]; auto|]. cbn in H. apply andb_true_iff in H. destruct H as [H1 H2]. rewrite H1.
  intros x [<-|I]; auto.
Qed.
Lemma containsOnly_words : forall s, containsOnlyWhitespaces s = true <-> jwords s = [].
Proof.
  intro s. split; [apply segments_blank|]. unfold containsOnlyWhitespaces, jwords, words. intro H.
  induction s as [|c r IH]; auto. cbn [forallb]. apply andb_true_iff. cbn [segments] in H. unfold jblank at 1 in H.
  change (" "%char) with SP in H. change ("009"%char) with TAB in H.
  destruct (Ascii.eqb c SP || Ascii.eqb c TAB) eqn:Ec; [split; auto|].
  destruct (segments jblank r) as [|x xs]; cbn in H; discriminate.
Qed.
Definition is_obj (t : tag) : Prop := match t with Other => False | _ => True end.
Lemma read_tags_spec : forall ts trs, Forall goodp trs -> Forall is_obj ts ->
  exists l, read_tags ts trs = Done l /\ Forall goodp l /\ map wpair l = map wpair trs ++ pairs_of ts.
Proof.
  induction ts as [|t ts IH]; intros trs G O; [exists trs; cbn; rewrite app_nil_r; auto|].
  inversion O as [|? ? Ot O']; subst. destruct t as [[o|] [t|]|]; cbn [read_tags]; try contradiction; try (now apply IH).
  unfold pairs_of. cbn [flat_map usable].
  destruct (containsOnlyWhitespaces o) eqn:Eo.
  { apply containsOnly_words in Eo. rewrite Eo. cbn [negb andb]. destruct (list_eq_dec (list_eq_dec ascii_dec) [] []) as [_|XX]; [|now destruct XX]. cbn [orb app]. now apply IH. }
  destruct (containsOnlyWhitespaces t) eqn:Et.
  { apply containsOnly_words in Et. rewrite Et. cbn [negb andb]. destruct (list_eq_dec (list_eq_dec ascii_dec) [] []) as [_|XX]; [|now destruct XX]. rewrite orb_true_r. cbn [app]. now apply IH. }
  cbn [negb andb].
  assert (No : jwords o <> []) by (intro N; apply containsOnly_words in N; congruence).
  assert (Nt : jwords t <> []) by (intro N; apply containsOnly_words in N; congruence).
  destruct (list_eq_dec (list_eq_dec ascii_dec) (jwords o) []); [exfalso; auto|]. destruct (list_eq_dec (list_eq_dec ascii_dec) (jwords t) []); [exfalso; auto|]. cbn [orb app].
  destruct (IH (trs ++ [(o, t)])) as (l & E & Gl & M); auto.
  { apply Forall_app. split; auto. repeat constructor; auto. }
  exists l. split; auto. split; auto. rewrite M, map_app, <- app_assoc. reflexivity.
Qed.
Lemma read_tags_throws : forall ts trs, In Other ts -> read_tags ts trs = Throws.
Proof.
  induction ts as [|t ts IH]; intros trs I; [contradiction|]. destruct I as [->|I]; auto.
  destruct t as [[o|] [t|]|]; cbn [read_tags]; auto.
Qed.
Lemma pairs_good : forall ts p t, In (p, t) (pairs_of ts) -> p <> [] /\ t <> [].
Proof.
  intros ts p t I. apply in_flat_map in I. destruct I as (x & _ & I). destruct x as [[o|] [u|]|]; cbn in I; try contradiction.
  destruct (list_eq_dec (list_eq_dec ascii_dec) (jwords o) []); [contradiction|]. destruct (list_eq_dec (list_eq_dec ascii_dec) (jwords u) []); [contradiction|].
  destruct I as [E|[]]. injection E as <- <-. auto.
Qed.
Definition title_words (title : option str) : list str := match title with Some s => jwords s | None => [] end.

Lemma doc_run : forall title ts, Forall is_obj ts ->
  match obtainJsonConstraints (Doc title (Some ts)) with
  | Done (sent, l) => sent = title_words title /\ assigned sent 0 (pairs_of ts) l
  | Undef => exists p t, In (p, t) (pairs_of ts) /\ cut_off (title_words title) p
  | Throws => False
  end.
Proof.
  intros title ts O. cbn [obtainJsonConstraints].
  assert (E : match title with Some s => of_opt (stringToStringVector s) | None => Done [] end = Done (title_words title)).
  { destruct title; [now rewrite s2v_jwords|reflexivity]. }
  rewrite E. cbn [bind]. destruct (read_tags_spec ts []) as (trs & R & G & M); [constructor|auto|]. rewrite R. cbn [bind]. cbn [map app] in M.
  unfold addTranslations. generalize (add_loop_spec (title_words title) (1 + length (title_words title) + length trs) 0 trs []).
  destruct (add_loop _ _ _ _ _) as [| |r]; cbn [bind]; intro H.
  - destruct H as ([o t] & I & C); [lia|auto|constructor|]. exists (jwords o), (jwords t). split; auto. rewrite <- M. apply (in_map wpair) in I. exact I.
  - apply H; [lia|auto|constructor].
  - destruct H as (l & -> & A); [lia|auto|constructor|]. cbn [app]. rewrite <- M. auto.
Qed.
Lemma doc_complete : forall title ts, Forall is_obj ts -> in_order (title_words title) (map fst (pairs_of ts)) ->
  exists l, obtainJsonConstraints (Doc title (Some ts)) = Done (title_words title, l) /\ assigned (title_words title) 0 (pairs_of ts) l /\ map snd l = map snd (pairs_of ts).
Proof.
  intros title ts O I. generalize (doc_run title ts O). cbn [obtainJsonConstraints].
  assert (E : match title with Some s => of_opt (stringToStringVector s) | None => Done [] end = Done (title_words title)).
  { destruct title; [now rewrite s2v_jwords|reflexivity]. }
  rewrite E. cbn [bind]. destruct (read_tags_spec ts []) as (trs & R & G & M); [constructor|auto|]. rewrite R. cbn [bind]. cbn [map app] in M.
  unfold addTranslations. generalize (add_loop_complete (title_words title) (1 + length (title_words title) + length trs) 0 trs []).
  destruct (add_loop _ _ _ _ _) as [| |r]; cbn [bind]; intros N H.
  - exfalso. apply N; [lia|auto| |reflexivity]. cbn [skipn]. rewrite <- M in I. rewrite map_map in I. exact I.
  - contradiction.
  - destruct H as [_ A]. exists r. split; [reflexivity|]. split; auto. apply (assigned_full _ _ _ _ A); [intros p t X; exact (proj1 (pairs_good ts p t X))|exact I].
Qed.
Lemma assigned_ordered : forall sent from trs l, assigned sent from trs l -> (forall p t, In (p, t) trs -> p <> [] /\ t <> []) ->
  Forall (fun kv => from < fst (fst kv) /\ fst (fst kv) <= snd (fst kv) /\ snd (fst kv) <= length sent /\ snd kv <> [] /\
                    In (firstn (snd (fst kv) - (fst (fst kv) - 1)) (skipn (fst (fst kv) - 1) sent), snd kv) trs) l /\
  StronglySorted (fun a b => snd (fst a) < fst (fst b)) l.
Proof.
  intros sent from trs l A. induction A as [from|from p t r k l LK O F A IH|from p t r F]; intros NE; [split; constructor| |split; constructor].
  destruct IH as [IF IS]; [intros; apply NE; now right|]. destruct (NE p t (or_introl eq_refl)) as [Np Nt].
  assert (OL := occurs_le _ _ _ O). assert (0 < length p) by (destruct p; [congruence|cbn; lia]).
  split.
  - constructor.
    + cbn [fst snd]. repeat split; auto; try lia. left. f_equal.
      apply occurs_skipn in O; [|lia]. destruct O as [rest O]. replace (k + 1 - 1) with k by lia. rewrite O.
      replace (k + length p - k) with (length p) by lia. now rewrite firstn_app, Nat.sub_diag, firstn_all, app_nil_r.
    + eapply Forall_impl; [|exact IF]. cbn beta. intros a (X1 & X2 & X3 & X4 & X5). repeat split; auto; try lia. now right.
  - constructor; auto. eapply Forall_impl; [|exact IF]. cbn [fst snd]. intros a (X1 & _). lia.
Qed.
Lemma ordered_good : forall n (l : list (seg * list str)),
  Forall (fun kv => 1 <= fst (fst kv) <= snd (fst kv) /\ snd (fst kv) <= n /\ snd kv <> []) l ->
  StronglySorted (fun a b => snd (fst a) < fst (fst b)) l -> good_constraints n l.
Proof.
  intros n l F S. split.
  - split.
    + apply Forall_map. eapply Forall_impl; [|exact F]. cbn. intros a; tauto.
    + induction S as [|a m S IH FA]; cbn; constructor.
      * apply Forall_map. rewrite Forall_forall in *. intros b I j [X Y]. specialize (FA b I). destruct X as [_ X]; destruct Y as [Y _].
        exact (Nat.lt_irrefl _ (Nat.le_lt_trans _ _ _ Y (Nat.le_lt_trans _ _ _ X FA))).
      * inversion F; auto.
  - eapply Forall_impl; [|exact F]. cbn. tauto.
Qed.
