From Coq Require Import Ascii String Arith ZArith List Bool Lia.
From Verif Require Import EditDistSpec EditDistModel EditDistProofs TextSpec TextModel EcSpec EcModel EcProofs EcwSpec EcwModel EcwProofs.
Import ListNotations.
Open Scope Z_scope.

Section G.
Variables hc ic sc dc : Z.
Hypothesis DC : 0 < dc.
Notation D := (D hc ic sc dc).
Notation psub := (psub hc ic sc dc).
Notation pins := (pins ic).

Definition mset (Q : list str -> Prop) (f : list str -> Z) (v : Z) : Prop := (exists ws, Q ws /\ f ws = v) /\ forall ws, Q ws -> v <= f ws.
Lemma mset_inj : forall Q f v v', mset Q f v -> mset Q f v' -> v = v'.
Proof. intros Q f v v' [(w1 & H1 & E1) L1] [(w2 & H2 & E2) L2]. specialize (L1 _ H2). specialize (L2 _ H1). lia. Qed.
Lemma mset_ext : forall Q Q' f f' v, (forall ws, Q ws <-> Q' ws) -> (forall ws, Q ws -> f ws = f' ws) -> mset Q f v -> mset Q' f' v.
Proof.
  intros Q Q' f f' v HQ HF [(w & H & E) L]. split.
  - exists w. split; [now apply HQ|]. rewrite <- HF; auto.
  - intros ws H'. apply HQ in H'. rewrite <- HF by auto. auto.
Qed.

Section P.
Variable p : list str.
(** column [j] of the sentences of [Q] continued by [u] *)
Definition mcol (Q : list str -> Prop) (u : list str) (j : nat) (v : Z) : Prop := mset Q (fun ws => D p (ws ++ u) j) v.

Lemma D_app_snoc : forall ws u w, D p (ws ++ u ++ [w]) = drow hc ic sc dc p (D p (ws ++ u)) w.
Proof. intros. rewrite app_assoc. apply D_snoc. Qed.
Lemma mcol_0 : forall Q u w v, mcol Q u 0 v -> mcol Q (u ++ [w]) 0 (v + deletionCost dc w).
Proof.
  intros Q u w v [(ws & H & E) L]. split.
  - exists ws. split; auto. rewrite D_app_snoc. cbn [drow]. lia.
  - intros ws' H'. rewrite D_app_snoc. cbn [drow]. specialize (L _ H'). lia.
Qed.
Lemma mcol_step : forall Q u w j a b c, mcol Q u j a -> mcol Q u (S j) b -> mcol Q (u ++ [w]) j c ->
  mcol Q (u ++ [w]) (S j) (Z.min (a + psub p j w) (Z.min (b + deletionCost dc w) (c + pins p j))).
Proof.
  intros Q u w j a b c [(w1 & H1 & E1) L1] [(w2 & H2 & E2) L2] [(w3 & H3 & E3) L3].
  assert (LB : forall ws, Q ws -> Z.min (a + psub p j w) (Z.min (b + deletionCost dc w) (c + pins p j)) <= D p (ws ++ u ++ [w]) (S j)).
  { intros ws H. specialize (L1 _ H). specialize (L2 _ H). specialize (L3 _ H). rewrite D_app_snoc in *. cbn [drow]. lia. }
  split; [|exact LB].
  assert (UB : forall ws, D p (ws ++ u ++ [w]) (S j) = Z.min (D p (ws ++ u) j + psub p j w) (Z.min (D p (ws ++ u) (S j) + deletionCost dc w) (D p (ws ++ u ++ [w]) j + pins p j))).
  { intros ws. rewrite D_app_snoc. reflexivity. }
  destruct (Z.le_gt_cases (a + psub p j w) (Z.min (b + deletionCost dc w) (c + pins p j))).
  - exists w1. split; auto. specialize (LB _ H1). rewrite UB in *. lia.
  - destruct (Z.le_gt_cases (b + deletionCost dc w) (c + pins p j)).
    + exists w2. split; auto. specialize (LB _ H2). rewrite UB in *. lia.
    + exists w3. split; auto. specialize (LB _ H3). rewrite UB in *. lia.
Qed.

(** ** operations of one word *)
Definition opshape (ops : list eop) (j : nat) : Prop :=
  match j with O => nth_error ops 0 = Some NONE_OP | _ => exists o, nth_error ops j = Some o /\ In o [HIT_OP; SUBST_OP; INS_OP; DEL_OP] end.
Definition opcol (w : str) (prev row : list Z) (ops : list eop) (j : nat) : Prop :=
  exists i, lastInsPref ops j = Some i /\ (i <= j)%nat /\ forall ws, D p (ws ++ [w]) j - nth j row 0 <= D p ws i - nth i prev 0.

(** columns below [K] of a word's record *)
Definition esi_ok (K : nat) (Q : list str -> Prop) (u : list str) (w : str) (prev : list Z) (e : esi) : Prop :=
  length (scrVec e) = K /\ length (opIdVec e) = K /\
  forall j, (j < K)%nat -> mcol Q (u ++ [w]) j (nth j (scrVec e) 0) /\ opshape (opIdVec e) j /\ opcol w prev (scrVec e) (opIdVec e) j.
Fixpoint arc_ok (K : nat) (Q : list str -> Prop) (u : list str) (prev : list Z) (ws : list str) (es : list esi) : Prop :=
  match ws, es with
  | [], [] => True
  | w :: ws', e :: es' => esi_ok K Q u w prev e /\ arc_ok K Q (u ++ [w]) (scrVec e) ws' es'
  | _, _ => False
  end.
Lemma arc_ok_len : forall K Q ws u prev es, arc_ok K Q u prev ws es -> length es = length ws.
Proof. intros K Q ws. induction ws as [|w ws IH]; intros u prev [|e es]; cbn; try tauto. intros [_ H]. f_equal. eauto. Qed.
Lemma opcol_prev : forall w prev prev' row ops j, (forall i, (i <= j)%nat -> nth i prev 0 = nth i prev' 0) -> opcol w prev row ops j -> opcol w prev' row ops j.
Proof. intros w prev prev' row ops j E (i & H1 & H2 & H3). exists i. repeat split; auto. intros ws. rewrite <- E by auto. auto. Qed.
Lemma arc_ok_prev : forall K Q ws u prev prev' es, (forall i, (i < K)%nat -> nth i prev 0 = nth i prev' 0) -> arc_ok K Q u prev ws es -> arc_ok K Q u prev' ws es.
Proof.
  intros K Q [|w ws] u prev prev' [|e es] E; cbn; auto. intros [(L1 & L2 & H) R]. split; [|exact R]. split; [auto|]. split; [auto|].
  intros j Hj. destruct (H j Hj) as (A & B & C). split; [exact A|]. split; [exact B|]. eapply opcol_prev; [|exact C]. intros i Hi. apply E. lia.
Qed.
Definition lastrow (prev : list Z) (es : list esi) : list Z := match es with [] => prev | _ => scrVec (last es (mkesi [] [])) end.
Lemma arc_ok_last : forall K Q ws u prev es, arc_ok K Q u prev ws es -> length prev = K -> (forall j, (j < K)%nat -> mcol Q u j (nth j prev 0)) ->
  length (lastrow prev es) = K /\ forall j, (j < K)%nat -> mcol Q (u ++ ws) j (nth j (lastrow prev es) 0).
Proof.
  intros K Q ws. induction ws as [|w ws IH]; intros u prev [|e es] A L M; cbn in A; try tauto.
  - rewrite app_nil_r. auto.
  - destruct A as [(L1 & L2 & H) R]. replace (lastrow prev (e :: es)) with (lastrow (scrVec e) es) by (destruct es; reflexivity).
    replace (u ++ w :: ws) with ((u ++ [w]) ++ ws) by (rewrite <- app_assoc; reflexivity). apply IH; auto. intros j Hj. apply H. auto.
Qed.

(** agreement of two lists of records below column [k] *)
Definition eagree (k : nat) (e e' : esi) : Prop :=
  (forall j, (j < k)%nat -> nth j (scrVec e) 0 = nth j (scrVec e') 0) /\ (forall j, (j < k)%nat -> nth_error (opIdVec e) j = nth_error (opIdVec e') j).
Definition lagree (k : nat) (es es' : list esi) : Prop := k = 0%nat \/ Forall2 (eagree k) es es'.

(** ** the operations record *)
Lemma skip_ins_eq : forall ops ops' j, (forall i, (i <= j)%nat -> nth i ops NONE_OP = nth i ops' NONE_OP) -> skip_ins ops j = skip_ins ops' j.
Proof.
  intros ops ops' j. induction j as [|j IH]; intro E; cbn [skip_ins]; rewrite <- (E _ (le_n _)); [reflexivity|]. rewrite IH; auto.
Qed.
Lemma skip_ins_le : forall ops j, (skip_ins ops j <= j)%nat.
Proof. intros ops j. induction j as [|j IH]; cbn [skip_ins]; destruct (nth _ ops NONE_OP); lia. Qed.
Lemma lastIns_eq : forall ops ops' j, (forall i, (i <= j)%nat -> nth_error ops i = nth_error ops' i) -> lastInsPref ops j = lastInsPref ops' j.
Proof.
  intros ops ops' j E. assert (N : forall i, (i <= j)%nat -> nth i ops NONE_OP = nth i ops' NONE_OP).
  { intros i Hi. specialize (E i Hi). destruct (nth_error ops i) eqn:A.
    - rewrite (nth_error_nth _ _ _ A), (nth_error_nth ops' i NONE_OP (eq_sym E)). reflexivity.
    - apply nth_error_None in A. symmetry in E. apply nth_error_None in E. rewrite !nth_overflow; auto. }
  unfold lastInsPref. rewrite (E j (le_n _)). destruct (nth_error ops' j) as [[]|]; auto.
  rewrite (skip_ins_eq ops ops') by auto. rewrite N by apply skip_ins_le. reflexivity.
Qed.
Lemma opshape_nth : forall ops j, opshape ops j -> exists o, nth_error ops j = Some o /\ nth j ops NONE_OP = o /\ (In o [HIT_OP; SUBST_OP; INS_OP; DEL_OP] /\ (0 < j)%nat \/ j = 0%nat /\ o = NONE_OP).
Proof.
  intros ops [|j] H; cbn in H.
  - exists NONE_OP. split; [auto|]. split; [now apply nth_error_nth|]. right. auto.
  - destruct H as (o & E & I). exists o. split; [auto|]. split; [now apply nth_error_nth|]. left; split; [auto|lia].
Qed.
(** after an insertion one continues where the previous column continues *)
Lemma lastIns_ins : forall ops j, opshape ops j -> nth_error ops (S j) = Some INS_OP -> lastInsPref ops (S j) = lastInsPref ops j.
Proof.
  intros ops j SH E. destruct (opshape_nth _ _ SH) as (o & E1 & E2 & C).
  unfold lastInsPref. rewrite E, E1. cbn [skip_ins]. rewrite (nth_error_nth _ _ NONE_OP E).
  destruct C as [[C J]|[-> ->]].
  - destruct C as [<-|[<-|[<-|[<-|[]]]]]; destruct j as [|j]; try lia; try reflexivity; cbn [skip_ins]; rewrite E2; rewrite ?E2; reflexivity.
  - cbn [skip_ins]. rewrite E2. cbv iota. now rewrite E2.
Qed.

Lemma del_pos1 : forall w, w <> [] -> 0 < deletionCost dc w.
Proof. intros w N. unfold deletionCost. destruct w; [congruence|]. cbn [length]. lia. Qed.

(** ** extending one record *)
Section EXT.
Variables (c diff : list str).
Hypothesis EP : p = c ++ diff.
Hypothesis ND : diff <> [].
Notation k := (length c).
Notation N := (S (length p)).

Lemma pref_complete_app : pref_complete diff = pref_complete p.
Proof.
  rewrite EP. unfold pref_complete. destruct diff as [|d ds] eqn:E; [congruence|]. destruct (c ++ d :: ds) eqn:E2; [destruct c; discriminate|]. rewrite <- E2.
  f_equal. clear. induction c as [|a l IH]; [reflexivity|]. cbn [app]. destruct (l ++ d :: ds) eqn:E; [destruct l; discriminate|]. exact IH.
Qed.
Lemma pref_words_app : pref_words p = c ++ pref_words diff.
Proof.
  unfold pref_words. rewrite <- pref_complete_app. rewrite EP.
  assert (L : last (c ++ diff) [] = last diff []).
  { clear - ND. induction c as [|a l IH]; [reflexivity|]. cbn [app]. destruct (l ++ diff) eqn:E; [destruct l, diff; discriminate||congruence|]. exact IH. }
  rewrite L. unfold set_last. destruct diff as [|d ds] eqn:E; [congruence|]. destruct (c ++ d :: ds) eqn:E2; [destruct c; discriminate|]. rewrite <- E2.
  rewrite removelast_app by congruence. rewrite <- app_assoc. reflexivity.
Qed.
Lemma incrWords_ok : forall j, (k <= j)%nat -> nth j (incrWords N diff) [] = nth j (pref_words p) [].
Proof.
  intros j Hj. unfold incrWords. rewrite pref_words_app, EP, app_length.
  replace (S (k + length diff) - 1 - length diff)%nat with k by lia.
  rewrite !app_nth2; rewrite ?repeat_length; auto.
Qed.
Lemma incrWords_len : length (incrWords N diff) = length p.
Proof. unfold incrWords. rewrite app_length, repeat_length, pref_words_len, EP, app_length. lia. Qed.

Lemma extend_ok : forall Q u w prev e, w <> [] -> length prev = N -> (forall j, (j < N)%nat -> mcol Q u j (nth j prev 0)) ->
  esi_ok (S k) Q u w prev e ->
  exists e', extendEsi hc ic sc dc diff prev w e = Some e' /\ eagree (S k) e e' /\ esi_ok N Q u w prev e'.
Proof.
  intros Q u w prev e WN LP MP (L1 & L2 & H). unfold extendEsi, incrEditDistPrefix.
  assert (LL : length p = (k + length diff)%nat) by (rewrite EP, app_length; reflexivity).
  destruct diff as [|d0 ds] eqn:ED; [congruence|]. rewrite <- ED in *. clear ED.
  destruct (Nat.ltb_spec (length prev) (length diff + 1)); [lia|].
  rewrite LP. replace (N - length diff)%nat with (S k) by lia.
  destruct (incr_loop_ok hc ic sc dc (pref_complete diff) w (incrWords N diff) prev (length diff) (S k) (pad N (scrVec e)) [])
    as (new & ops & E & LN & LO & K & R); [lia|rewrite pad_len; lia|].
  rewrite pad_len in LN by lia.
  cbn [app] in E. rewrite E. eexists. split; [reflexivity|].
  assert (AG : eagree (S k) e (mkesi new (opIdVec e ++ ops))).
  { split; cbn [scrVec opIdVec]; intros j Hj; [rewrite K by auto; symmetry; apply pad_nth; lia|]. now rewrite nth_error_app1 by lia. }
  split; [exact AG|]. destruct AG as [AG1 AG2]. cbn [scrVec opIdVec] in AG1, AG2.
  split; [exact LN|]. split; [cbn [opIdVec]; rewrite app_length; lia|]. cbn [scrVec opIdVec].
  intro j. induction j as [j IH] using lt_wf_ind. intro Hj.
  destruct (Nat.lt_ge_cases j (S k)) as [Hk|Hk].
  - destruct (H j Hk) as (A & B & C). split; [now rewrite <- AG1|]. split.
    + destruct j as [|j]; cbn [opshape] in *; rewrite <- AG2 by lia; auto.
    + destruct C as (i & C1 & C2 & C3). exists i. split; [|split; auto].
      * rewrite <- C1. symmetry. apply lastIns_eq. intros i' Hi'. apply AG2. lia.
      * intros ws. rewrite <- AG1 by auto. auto.
  - destruct (R j) as [R1 R2]; [lia|]. destruct j as [|j]; [lia|].
    destruct (wcell_local hc ic sc dc (pref_complete diff) w (incrWords N diff) (fun i j => nth j match i with O => prev | S _ => new end 0) j) as [S1 S2].
    cbv zeta in S1, S2. rewrite <- R1, <- R2 in *. cbv iota in S1, S2.
    assert (SB : lsub hc ic sc dc (pref_complete diff) w (incrWords N diff) j = psub p j w).
    { unfold lsub, EcwProofs.psub. rewrite incrWords_len, incrWords_ok, pref_complete_app by lia. reflexivity. }
    assert (IN : insertionCost ic (nth j (incrWords N diff) []) = pins p j) by (unfold EcwProofs.pins; now rewrite incrWords_ok by lia).
    rewrite SB, IN in *.
    assert (NO : nth_error (opIdVec e ++ ops) (S j) = Some (nth (S j - S k) ops NONE_OP)).
    { rewrite nth_error_app2 by lia. rewrite L2. apply nth_error_nth'. lia. }
    assert (UB : forall ws, D p (ws ++ [w]) (S j) = Z.min (D p ws j + psub p j w) (Z.min (D p ws (S j) + deletionCost dc w) (D p (ws ++ [w]) j + pins p j))).
    { intros ws. rewrite D_snoc. reflexivity. }
    destruct (IH j) as (M1 & SH & OC); [lia|lia|].
    split; [|split].
    + rewrite S1. apply mcol_step; [apply MP; lia|apply MP; lia|exact M1].
    + cbn [opshape]. eexists. split; [exact NO|]. destruct S2 as [[[-> | ->] _]|[[[-> | ZZ] _]|[-> _]]]; cbn; auto. pose proof (del_pos1 w WN). lia.
    + unfold opcol. destruct S2 as [[SO SV]|[[SO SV]|[SO SV]]].
      * exists j. unfold lastInsPref. rewrite NO. split; [destruct SO as [-> | ->]; cbn; now rewrite Nat.sub_0_r|]. split; [lia|]. intros ws. specialize (UB ws). unfold str in *. lia.
      * exists (S j). unfold lastInsPref. rewrite NO. destruct SO as [-> | ZZ]; [|pose proof (del_pos1 w WN); lia]. split; [reflexivity|]. split; [lia|]. intros ws. specialize (UB ws). unfold str in *. lia.
      * destruct OC as (i & O1 & O2 & O3). exists i. split; [|split; [lia|]].
        -- rewrite lastIns_ins; auto. now rewrite NO, SO.
        -- intros ws. specialize (O3 ws). specialize (UB ws). unfold str in *. lia.
Qed.

Lemma arc_extend_ok : forall Q ws u prev es, (forall w, In w ws -> w <> []) -> length prev = N -> (forall j, (j < N)%nat -> mcol Q u j (nth j prev 0)) ->
  arc_ok (S k) Q u prev ws es ->
  exists es', arc_words (extendEsi hc ic sc dc diff) prev ws es = Some es' /\ Forall2 (eagree (S k)) es es' /\ arc_ok N Q u prev ws es'.
Proof.
  intros Q ws. induction ws as [|w ws IH]; intros u prev [|e es] WN LP MP A; cbn in A; try tauto.
  - exists []. cbn. auto.
  - destruct A as [A R]. destruct (extend_ok Q u w prev e) as (e' & E & AG & OK); auto; [apply WN; left; reflexivity|].
    destruct (IH (u ++ [w]) (scrVec e') es) as (es' & E' & AG' & OK').
    + intros w' H. apply WN. right. auto.
    + apply OK.
    + intros j Hj. apply OK. auto.
    + eapply arc_ok_prev; [|exact R]. intros i Hi. apply AG. auto.
    + cbn [arc_words hd tl]. rewrite E, E'. eexists. split; [reflexivity|]. split; [constructor; auto|]. cbn. auto.
Qed.
End EXT.

(** ** the first column *)
Lemma construct_ok : forall Q u w prev, (0 < length prev)%nat -> mcol Q u 0 (nth 0 prev 0) ->
  exists e, constructEsi dc prev w = Some e /\ esi_ok 1 Q u w prev e.
Proof.
  intros Q u w [|z prev] L M; [simpl in L; lia|]. eexists. split; [reflexivity|]. split; [reflexivity|]. split; [reflexivity|].
  intros j Hj. assert (j = 0)%nat by lia. subst j. cbn [scrVec opIdVec nth] in *. split; [now apply mcol_0|]. split; [reflexivity|].
  exists 0%nat. split; [reflexivity|]. split; [lia|]. intros ws. cbn [nth]. rewrite D_snoc. cbn [drow]. lia.
Qed.
Lemma arc_construct_ok : forall Q ws u prev es, (0 < length prev)%nat -> mcol Q u 0 (nth 0 prev 0) ->
  exists es', arc_words (fun prev w _ => constructEsi dc prev w) prev ws es = Some es' /\ arc_ok 1 Q u prev ws es'.
Proof.
  intros Q ws. induction ws as [|w ws IH]; intros u prev es L M; [exists []; cbn; auto|].
  destruct (construct_ok Q u w prev L M) as (e & E & OK).
  destruct (IH (u ++ [w]) (scrVec e) (tl es)) as (es' & E' & OK').
  - destruct OK as (L1 & _). lia.
  - apply OK. lia.
  - cbn [arc_words]. rewrite E, E'. eexists. split; [reflexivity|]. cbn. auto.
Qed.

(** ** going back through the words of an arc *)
Lemma arc_ok_snoc : forall K Q ws w u prev es, arc_ok K Q u prev (ws ++ [w]) es ->
  exists es0 e, es = es0 ++ [e] /\ arc_ok K Q u prev ws es0 /\ esi_ok K Q (u ++ ws) w (lastrow prev es0) e.
Proof.
  intros K Q ws. induction ws as [|w0 ws IH]; intros w u prev es A.
  - destruct es as [|e [|e2 es]]; cbn in A; try tauto. destruct A as [A _]. exists [], e. rewrite app_nil_r. cbn. auto.
  - destruct es as [|e es]; [contradiction|]. cbn [app arc_ok] in A. destruct A as [A R].
    destruct (IH w (u ++ [w0]) (scrVec e) es R) as (es0 & e1 & -> & R1 & R2).
    exists (e :: es0), e1. split; [reflexivity|]. split; [cbn; auto|]. rewrite <- app_assoc in R2. cbn [app] in R2.
    replace (lastrow prev (e :: es0)) with (lastrow (scrVec e) es0) by (destruct es0; reflexivity). exact R2.
Qed.
Lemma back_words_app : forall es e m pos, (m <= length es)%nat -> back_words (es ++ [e]) m pos = back_words es m pos.
Proof.
  intros es e m. induction m as [|m IH]; intros pos H; [reflexivity|]. cbn [back_words]. rewrite nth_error_app1 by lia.
  destruct (nth_error es m); auto. destruct (lastInsPref _ _); auto. apply IH. lia.
Qed.
Lemma back_ok : forall K Q ws u prev es pos, arc_ok K Q u prev ws es -> (pos < K)%nat ->
  exists i, back_words es (length ws) pos = Some i /\ (i <= pos)%nat /\ forall x, D p (x ++ ws) pos - nth pos (lastrow prev es) 0 <= D p x i - nth i prev 0.
Proof.
  intros K Q ws. induction ws as [|w ws IH] using rev_ind; intros u prev es pos A Hp.
  - destruct es; [|contradiction]. exists pos. cbn. repeat split; auto. intros x. rewrite app_nil_r. lia.
  - destruct (arc_ok_snoc _ _ _ _ _ _ _ A) as (es0 & e & -> & A0 & (L1 & L2 & H)).
    destruct (H pos Hp) as (_ & _ & (i & E1 & Hi & B1)).
    destruct (IH u prev es0 i A0) as (i2 & E2 & Hi2 & B2); [lia|].
    rewrite app_length. cbn [length]. rewrite Nat.add_1_r. cbn [back_words]. pose proof (arc_ok_len _ _ _ _ _ _ A0) as LE.
    rewrite nth_error_app2 by lia. rewrite LE, Nat.sub_diag. cbn [nth_error]. rewrite E1. rewrite back_words_app by lia. rewrite E2.
    exists i2. split; [reflexivity|]. split; [lia|]. intros x.
    assert (LR : lastrow prev (es0 ++ [e]) = scrVec e) by (unfold lastrow; destruct es0; [reflexivity|]; cbn [app]; rewrite app_comm_cons, last_last; reflexivity).
    rewrite LR. specialize (B1 (x ++ ws)). rewrite <- app_assoc in B1. specialize (B2 x). lia.
Qed.
End P.
End G.
