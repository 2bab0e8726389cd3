(** Proofs about the language model's word codes and its string interface. *)
From Coq Require Import Ascii String Arith NArith QArith Lqa List Bool Lia Permutation.
From Verif Require Import AMap ContainerSpec ContainerModel ContainerProofs TrieIterSpec TrieIterModel TrieIterProofs LmSpec LmModel LmDrive LmTabProofs.
Import ListNotations.
Open Scope nat_scope.

Definition encb (b : nat) (e : enc) : Prop :=
  awf (h2x e) /\ (forall w i, enc_find w e = Some i <-> Trg_to_HighTrg i e = Some w) /\ forall w i, enc_find w e = Some i -> i <= b.
Definition encwf (e : enc) : Prop := encb (xobj e) e.
Definition ext (e e' : enc) : Prop := forall w i, enc_find w e = Some i -> enc_find w e' = Some i.
Definition codes (e : enc) (hs : list string) (s : list nat) : Prop := Forall2 (fun w i => enc_find w e = Some i) hs s.

Lemma ext_refl : forall e, ext e e. Proof. intros e w i H. exact H. Qed.
Lemma ext_trans : forall a b c, ext a b -> ext b c -> ext a c. Proof. intros a b c H G w i X. auto. Qed.
Lemma codes_ext : forall e e' hs s, ext e e' -> codes e hs s -> codes e' hs s.
Proof. intros e e' hs s H G. induction G; constructor; auto. Qed.
Lemma enc_inj : forall b e w w' i, encb b e -> enc_find w e = Some i -> enc_find w' e = Some i -> w = w'.
Proof. intros b e w w' i (_ & H & _) A B. apply H in A. apply H in B. congruence. Qed.
Lemma known_dec : forall e w, known e w \/ enc_find w e = None.
Proof. intros e w. unfold known. destruct (enc_find w e); eauto. Qed.

Lemma put_find : forall w i e w', enc_find w' (enc_put w i e) = if string_dec w' w then Some i else enc_find w' e.
Proof. intros. unfold enc_find, enc_put. cbn [h2x]. apply aget_aset. Qed.
Lemma put_dec : forall w i e i', Trg_to_HighTrg i' (enc_put w i e) = if Nat.eq_dec i' i then Some w else Trg_to_HighTrg i' e.
Proof. intros. unfold Trg_to_HighTrg, enc_put. cbn [x2h]. apply aget_aset. Qed.

Lemma put_fresh : forall b e w i, encb b e -> enc_find w e = None -> b < i -> encb i (enc_put w i e) /\ ext e (enc_put w i e).
Proof.
  intros b e w i (A & B & C) N L.
  assert (Ni : Trg_to_HighTrg i e = None).
  { destruct (Trg_to_HighTrg i e) as [w'|] eqn:E; auto. apply B in E. apply C in E. lia. }
  split; [split; [|split]|].
  - unfold enc_put. cbn [h2x]. now apply aset_wf.
  - intros w' i'. rewrite put_find, put_dec. destruct (string_dec w' w) as [->|Nw], (Nat.eq_dec i' i) as [->|Ne].
    + tauto.
    + split; [congruence|]. rewrite <- B, N. discriminate.
    + split; [rewrite B, Ni; discriminate|congruence].
    + apply B.
  - intros w' i'. rewrite put_find. destruct (string_dec w' w); [intro E; injection E as <-; lia|]. intro E. apply C in E. lia.
  - intros w' i' E. rewrite put_find. destruct (string_dec w' w) as [->|]; [congruence|auto].
Qed.
Lemma put_same : forall b e w i, encb b e -> enc_find w e = Some i -> encb b (enc_put w i e) /\ (forall w', enc_find w' (enc_put w i e) = enc_find w' e).
Proof.
  intros b e w i (A & B & C) F.
  assert (X : forall w', enc_find w' (enc_put w i e) = enc_find w' e).
  { intro w'. rewrite put_find. destruct (string_dec w' w) as [->|]; auto. }
  split; auto. split; [|split].
  - unfold enc_put. cbn [h2x]. now apply aset_wf.
  - intros w' i'. rewrite X, put_dec. destruct (Nat.eq_dec i' i) as [->|]; [|apply B].
    rewrite B. rewrite (proj1 (B w i) F). split; auto.
  - intros w' i'. rewrite X. apply C.
Qed.

Lemma encwf0 : encwf lm_enc0.
Proof.
  split; [|split].
  - unfold awf. cbn. repeat constructor; cbn; intuition discriminate.
  - intros w i. split.
    + unfold enc_find, lm_enc0. cbn [h2x enc_put aset]. intro H. apply aget_some_in in H. cbn in H.
      repeat (destruct H as [H|H]; [injection H as <- <-; reflexivity|]). destruct H.
    + unfold Trg_to_HighTrg, lm_enc0. intro H. apply aget_some_in in H. cbn in H.
      repeat (destruct H as [H|H]; [injection H as <- <-; reflexivity|]). destruct H.
  - intros w i. unfold enc_find. intro H. apply aget_some_in in H. cbn in H.
    repeat (destruct H as [H|H]; [injection H as <- <-; apply Nat.leb_le; reflexivity|]). destruct H.
Qed.

Lemma trg_code_ok : forall w e i e', encwf e -> trg_code w e = (i, e') ->
  encwf e' /\ ext e e' /\ enc_find w e' = Some i /\ (forall x, known e' x <-> known e x \/ x = w) /\ (known e w -> e' = e).
Proof.
  intros w e i e' W. unfold trg_code, HighTrg_to_Trg. destruct (enc_find w e) as [j|] eqn:E.
  - intro H. injection H as <- <-. split; auto. split; [apply ext_refl|]. split; auto. split; [|auto].
    intro x. split; [auto|]. intros [H| ->]; [auto|exists j; auto].
  - unfold genHTrgCode. rewrite E. intro H. injection H as <- <-.
    assert (W' : encb (xobj e) (mkenc (h2x e) (x2h e) (S (xobj e)))) by exact W.
    destruct (put_fresh (xobj e) (mkenc (h2x e) (x2h e) (S (xobj e))) w (S (xobj e)) W' E (Nat.lt_succ_diag_r _)) as [W1 X].
    split; [exact W1|]. split; [exact X|]. split; [rewrite put_find; destruct (string_dec w w); congruence|]. split.
    + intro x. unfold known. rewrite put_find. destruct (string_dec x w) as [->|NE].
      * split; eauto.
      * split; [intros [k K]; left; exists k; exact K|]. intros [[k K]| ->]; [exists k; exact K|congruence].
    + intros [k K]. congruence.
Qed.

Lemma gen_add : forall e hs x s e1, genHSrcCode hs (mkenc (h2x e) (x2h e) x) = (s, e1) ->
  h2x e1 = h2x e /\ x2h e1 = x2h e /\ x <= xobj e1 /\
  forall ep, encb x ep -> (forall w, In w hs -> enc_find w ep = enc_find w e) -> (forall w, In w hs -> enc_find w e = None -> count_occ string_dec hs w = 1) ->
  let e' := addHSrcCode hs s ep in
  encb (xobj e1) e' /\ ext ep e' /\ codes e' hs s /\ (forall w, known e' w <-> known ep w \/ In w hs) /\ xobj e' = xobj ep.
Proof.
  intros e. induction hs as [|w hs IH]; intros x s e1 H.
  - cbn [genHSrcCode] in H. injection H as <- <-. cbn [h2x x2h xobj]. split; [reflexivity|]. split; [reflexivity|]. split; [lia|].
    intros ep W F C. cbn [addHSrcCode]. split; [exact W|]. split; [apply ext_refl|]. split; [constructor|]. split; [cbn [In]; tauto|reflexivity].
  - cbn [genHSrcCode] in H. unfold genHTrgCode in H. change (enc_find w (mkenc (h2x e) (x2h e) x)) with (enc_find w e) in H.
    destruct (enc_find w e) as [i|] eqn:E.
    + destruct (genHSrcCode hs (mkenc (h2x e) (x2h e) x)) as [s' e2] eqn:G. injection H as <- <-.
      destruct (IH _ _ _ G) as (H1 & H2 & H3 & H4). split; [auto|]. split; [auto|]. split; [auto|].
      intros ep W F C. cbn [addHSrcCode]. cbn zeta. assert (Fw : enc_find w ep = Some i) by (rewrite F by (now left); auto).
      destruct (put_same x ep w i W Fw) as [W' X].
      destruct (H4 (enc_put w i ep) W') as (A1 & A2 & A3 & A4 & A5).
      { intros w' I. rewrite X. apply F. now right. }
      { intros w' I N. specialize (C w' (or_intror I) N). cbn [count_occ] in C. destruct (string_dec w w') as [->|]; [congruence|auto]. }
      split; auto. split; [intros w' i' Y; apply A2; now rewrite X|]. split; [constructor; [apply A2; now rewrite X|auto]|]. split; [|exact A5].
      intro w'. rewrite A4. unfold known at 1. rewrite X. fold (known ep w'). cbn [In]. split; [tauto|]. intros [K|[->|K]]; auto. left. exists i. auto.
    + cbn [h2x x2h] in H. destruct (genHSrcCode hs (mkenc (h2x e) (x2h e) (S x))) as [s' e2] eqn:G. cbn [xobj] in H. rewrite G in H. injection H as <- <-.
      destruct (IH _ _ _ G) as (H1 & H2 & H3 & H4). split; [auto|]. split; [auto|]. split; [lia|].
      intros ep W F C. cbn [addHSrcCode]. cbn zeta. assert (Fw : enc_find w ep = None) by (rewrite F by (now left); auto).
      destruct (put_fresh x ep w (S x) W Fw (Nat.lt_succ_diag_r _)) as [W' X].
      assert (Cw : ~ In w hs). { specialize (C w (or_introl eq_refl) E). cbn [count_occ] in C. destruct (string_dec w w); [|congruence]. apply (count_occ_not_In string_dec). lia. }
      destruct (H4 (enc_put w (S x) ep) W') as (A1 & A2 & A3 & A4 & A5).
      { intros w' I. rewrite put_find. destruct (string_dec w' w) as [->|]; [contradiction|]. apply F. now right. }
      { intros w' I N. specialize (C w' (or_intror I) N). cbn [count_occ] in C. destruct (string_dec w w') as [->|]; [contradiction|auto]. }
      split; auto. split; [intros w' i' Y; apply A2, X, Y|]. split; [constructor; [apply A2; rewrite put_find; destruct (string_dec w w); congruence|auto]|]. split; [|exact A5].
      intro w'. rewrite A4. unfold known at 1. rewrite put_find. cbn [In]. destruct (string_dec w' w) as [->|NE].
      * split; [auto|]. intros _. left. eauto.
      * fold (known ep w'). split; [tauto|]. intros [K|[->|K]]; auto. congruence.
Qed.

Lemma HighSrc_true : forall e hs s, HighSrc_to_Src hs e = (true, s) <-> codes e hs s.
Proof.
  intro e. induction hs as [|w hs IH]; intro s; cbn [HighSrc_to_Src].
  - split; [intro H; injection H as <-; constructor|]. intro H. inversion H; auto.
  - destruct (HighSrc_to_Src hs e) as [ok s'] eqn:G. destruct (enc_find w e) as [i|] eqn:E.
    + split.
      * intro H. injection H as -> <-. constructor; auto. now apply IH.
      * intro H. inversion H as [|? j ? s'' A B]; subst. rewrite A in E. injection E as <-. apply IH in B. injection B as -> <-. reflexivity.
    + split; [intro H; discriminate|]. intro H. inversion H; congruence.
Qed.
Lemma HighSrc_false : forall e hs s, HighSrc_to_Src hs e = (false, s) -> exists w, In w hs /\ enc_find w e = None.
Proof.
  intro e. induction hs as [|w hs IH]; intro s; cbn [HighSrc_to_Src]; [discriminate|].
  destruct (HighSrc_to_Src hs e) as [ok s'] eqn:G. destruct (enc_find w e) as [i|] eqn:E.
  - intro H. injection H as -> <-. destruct (IH _ eq_refl) as (x & I & N). exists x. split; auto. now right.
  - intros _. exists w. split; auto. now left.
Qed.

Lemma src_code_ok : forall hs e s e', encwf e -> (forall w, In w hs -> ~ known e w -> count_occ string_dec hs w = 1) -> src_code hs e = (s, e') ->
  encwf e' /\ ext e e' /\ codes e' hs s /\ (forall x, known e' x <-> known e x \/ In x hs) /\ ((forall w, In w hs -> known e w) -> e' = e).
Proof.
  intros hs e s e' W C. unfold src_code. destruct (HighSrc_to_Src hs e) as [[] s0] eqn:E.
  - intro H. injection H as <- <-. apply HighSrc_true in E. split; auto. split; [apply ext_refl|]. split; auto. split; [|auto].
    intro x. split; [auto|]. intros [H|H]; auto. clear -E H. induction E; [destruct H|]. destruct H as [<-|H]; [eexists; eauto|auto].
  - destruct (genHSrcCode hs e) as [s1 e1] eqn:G. intro H. injection H as <- <-.
    assert (Ee : e = mkenc (h2x e) (x2h e) (xobj e)) by (destruct e; reflexivity).
    rewrite Ee in G at 1. destruct (gen_add e hs (xobj e) s1 e1 G) as (H1 & H2 & H3 & H4).
    assert (Ef : forall w, enc_find w e1 = enc_find w e) by (intro w; unfold enc_find; now rewrite H1).
    destruct (H4 e1) as (A1 & A2 & A3 & A4 & A5).
    { destruct W as (W1 & W2 & W3). split; [rewrite H1; auto|]. split.
      - intros w i. rewrite Ef, W2. unfold Trg_to_HighTrg. now rewrite H2.
      - intros w i. rewrite Ef. apply W3. }
    { intros w _. apply Ef. }
    { intros w I N. apply C; auto. intros [k K]. congruence. }
    split; [unfold encwf; rewrite A5; exact A1|]. split; [intros w i X; apply A2; now rewrite Ef|]. split; auto. split.
    + intro x. rewrite A4. unfold known. now rewrite Ef.
    + intro K. exfalso. destruct (HighSrc_false _ _ _ E) as (w & I & N). destruct (K w I) as [k Kk]. congruence.
Qed.

Lemma add_symbols_ok : forall ws e, encwf e -> let e' := add_symbols ws e in encwf e' /\ ext e e' /\ (forall x, known e' x <-> known e x \/ In x ws).
Proof.
  induction ws as [|w ws IH]; intros e W; cbn [add_symbols].
  - split; auto. split; [apply ext_refl|]. cbn [In]. tauto.
  - set (e1 := if existSymbol w e then e else snd (trg_code w e)).
    assert (S1 : encwf e1 /\ ext e e1 /\ forall x, known e1 x <-> known e x \/ x = w).
    { unfold e1, existSymbol, HighTrg_to_Trg. destruct (enc_find w e) as [i|] eqn:E; cbn [fst].
      - split; auto. split; [apply ext_refl|]. intro x. split; auto. intros [K| ->]; auto. exists i. auto.
      - destruct (trg_code w e) as [i e2] eqn:T. destruct (trg_code_ok w e i e2 W T) as (A & B & C & D & _). cbn [snd]. auto. }
    destruct S1 as (W1 & X1 & K1). destruct (IH e1 W1) as (W2 & X2 & K2). split; auto. split; [eapply ext_trans; eauto|].
    intro x. rewrite K2, K1. cbn [In]. split; intros [H|H]; intuition.
Qed.

Lemma sti_known : forall e w i, enc_find w e = Some i -> stringToWordIndex w e = i.
Proof. intros e w i H. unfold stringToWordIndex, HighTrg_to_Trg. now rewrite H. Qed.
Lemma codes_map : forall e hs, (forall w, In w hs -> known e w) -> codes e hs (map (fun x => stringToWordIndex x e) hs).
Proof.
  intros e. induction hs as [|w hs IH]; intro H; cbn [map]; constructor.
  - destruct (H w (or_introl eq_refl)) as [i E]. now rewrite (sti_known e w i E).
  - apply IH. intros; apply H. now right.
Qed.

(** ** calls on the string interface *)

Definition op_enc (e : enc) (o : lm_op string) (o' : lm_op nat) : Prop :=
  match o, o' with
  | OpIncr h w c, OpIncr s i c' => codes e h s /\ enc_find w e = Some i /\ c' = c
  | OpSet h w cs cst, OpSet s i cs' cst' => codes e h s /\ enc_find w e = Some i /\ cs' = cs /\ cst' = cst
  | _, _ => False
  end.
Lemma op_enc_ext : forall e e' o o', ext e e' -> op_enc e o o' -> op_enc e' o o'.
Proof. intros e e' [h w c|h w a b] [s i c'|s i a' b'] X; cbn [op_enc]; try tauto; intros H; intuition; eauto using codes_ext. Qed.

Lemma Forall2_impl : forall (A B : Type) (P R : A -> B -> Prop) l l', (forall a b, P a b -> R a b) -> Forall2 P l l' -> Forall2 R l l'.
Proof. intros A B P R l l' H F. induction F; constructor; auto. Qed.
Definition lmrel (t0 : tab) (ops : list (lm_op string)) (iops : list (lm_op nat)) (m : lm) : Prop :=
  encwf (lenc m) /\ tab_run iops t0 = Some (ltab m) /\ Forall2 (op_enc (lenc m)) ops iops.

Lemma tab_run_snoc : forall ops o t, tab_run (ops ++ [o]) t = do t1 <- tab_run ops t ; tab_op o t1.
Proof.
  induction ops as [|p ops IH]; intros o t; cbn [app tab_run].
  - cbn [obind]. destruct (tab_op o t); reflexivity.
  - destruct (tab_op p t) as [t1|]; cbn [obind]; auto.
Qed.

Lemma op_total : forall iops t0 t o, tabwf t0 -> tab_run iops t0 = Some t -> exists t', tab_op o t = Some t'.
Proof.
  intros iops t0 t o W E. destruct (tab_run_ok iops t0 W) as (t1 & E1 & W1 & _). assert (t1 = t) by congruence. subst t1.
  destruct (tab_op_ok o t W1) as (t' & E' & _). eauto.
Qed.

Lemma lm_op_ok : forall t0 ops iops m o, tabwf t0 -> lmrel t0 ops iops m ->
  (match o with OpSet h _ _ _ => forall w, In w h -> ~ known (lenc m) w -> count_occ string_dec h w = 1 | _ => True end) ->
  exists m' o', lm_op_str o m = Some m' /\ lmrel t0 (ops ++ [o]) (iops ++ [o']) m' /\ ext (lenc m) (lenc m') /\
    (forall x, known (lenc m') x <-> known (lenc m) x \/ In x (op_words o)) /\ lorder m' = lorder m.
Proof.
  intros t0 ops iops m o W0 (W & T & F) C. destruct o as [h w c|h w cs cst]; cbn [lm_op_str].
  - unfold incrCountsOfNgramStr. set (e1 := add_symbols [w] (lenc m)). set (e2 := add_symbols h e1).
    destruct (add_symbols_ok [w] (lenc m) W) as (W1 & X1 & K1). fold e1 in W1, X1, K1. destruct (add_symbols_ok h e1 W1) as (W2 & X2 & K2). fold e2 in W2, X2, K2.
    assert (Kh : codes e2 h (map (fun x => stringToWordIndex x e2) h)) by (apply codes_map; intros; apply K2; auto).
    assert (Kw : known e2 w) by (apply K2; left; apply K1; right; now left).
    destruct Kw as [i Ei]. rewrite (sti_known e2 w i Ei).
    destruct (op_total iops t0 (ltab m) (OpIncr (map (fun x => stringToWordIndex x e2) h) i c) W0 T) as (t' & E). cbn [tab_op] in E. rewrite E. cbn [obind].
    eexists. exists (OpIncr (map (fun x => stringToWordIndex x e2) h) i c). split; [reflexivity|]. cbn [lenc lorder]. split; [|split; [|split]].
    + split; [exact W2|]. split; [rewrite tab_run_snoc, T; cbn [obind tab_op ltab]; exact E|].
      apply Forall2_app; [|constructor; [|constructor]; cbn [op_enc]; auto].
      eapply Forall2_impl; [|exact F]. intros a b. apply op_enc_ext. eapply ext_trans; eauto.
    + eapply ext_trans; eauto.
    + intro x. rewrite K2, K1. cbn [op_words]. rewrite in_app_iff. cbn [In]. intuition.
    + reflexivity.
  - unfold addTableEntryHigh. destruct (src_code h (lenc m)) as [s e1] eqn:G. destruct (trg_code w e1) as [i e2] eqn:G2.
    destruct (src_code_ok h (lenc m) s e1 W C G) as (W1 & X1 & Cs & K1 & _). destruct (trg_code_ok w e1 i e2 W1 G2) as (W2 & X2 & Ew & K2 & _).
    destruct (op_total iops t0 (ltab m) (OpSet s i cs cst) W0 T) as (t' & E). cbn [tab_op] in E. rewrite E. cbn [obind].
    eexists. exists (OpSet s i cs cst). split; [reflexivity|]. cbn [lenc lorder]. split; [|split; [|split]].
    + split; [exact W2|]. split; [rewrite tab_run_snoc, T; cbn [obind tab_op ltab]; exact E|].
      apply Forall2_app; [|constructor; [|constructor]; cbn [op_enc]; split; [eapply codes_ext; eauto|auto]].
      eapply Forall2_impl; [|exact F]. intros a b. apply op_enc_ext. eapply ext_trans; eauto.
    + eapply ext_trans; eauto.
    + intro x. rewrite K2, K1. cbn [op_words]. rewrite in_app_iff. cbn [In]. intuition.
    + reflexivity.
Qed.

Lemma no_new_repeats_mono : forall ops (k k' : list string), (forall x, In x k -> In x k') -> no_new_repeats string_dec k ops -> no_new_repeats string_dec k' ops.
Proof.
  induction ops as [|o ops IH]; intros k k' S; cbn [no_new_repeats]; auto. intros [A B]. split.
  - destruct o; [exact A|]. intros x I N. apply A; auto.
  - eapply IH; [|exact B]. intros x. rewrite !in_app_iff. intuition.
Qed.

Lemma lm_run_ok : forall ops t0 pre iops m k, tabwf t0 -> lmrel t0 pre iops m -> (forall x, In x k -> known (lenc m) x) -> no_new_repeats string_dec k ops ->
  exists m' iops', lm_run ops m = Some m' /\ lmrel t0 (pre ++ ops) (iops ++ iops') m' /\ ext (lenc m) (lenc m') /\
    (forall x, known (lenc m') x <-> known (lenc m) x \/ exists o, In o ops /\ In x (op_words o)) /\ lorder m' = lorder m.
Proof.
  induction ops as [|o ops IH]; intros t0 pre iops m k W0 R K C.
  - exists m, []. cbn [lm_run]. rewrite !app_nil_r. split; auto. split; auto. split; [apply ext_refl|]. split; auto.
    intro x. split; auto. intros [H|(o & [] & _)]. auto.
  - destruct C as [C1 C2]. destruct (lm_op_ok t0 pre iops m o W0 R) as (m1 & o' & E & R1 & X1 & K1 & O1).
    { destruct o; [exact C1|]. intros x I N. apply C1; auto. }
    destruct (IH t0 (pre ++ [o]) (iops ++ [o']) m1 (op_words o ++ k) W0 R1) as (m2 & iops2 & E2 & R2 & X2 & K2 & O2); auto.
    { intros x. rewrite in_app_iff. intros [H|H]; apply K1; auto. }
    exists m2, (o' :: iops2). cbn [lm_run]. rewrite E. cbn [obind]. split; auto. rewrite <- !app_assoc in R2. split; auto.
    split; [eapply ext_trans; eauto|]. split; [|congruence]. intro x. rewrite K2, K1. split.
    + intros [[H|H]|(p & I & H)]; auto; right; [exists o|exists p]; split; auto; [now left|now right].
    + intros [H|(p & [<-|I] & H)]; auto. right. eauto.
Qed.

(** ** reading counts back *)
Lemma codes_same : forall b e h h' s s', encb b e -> codes e h s -> codes e h' s' -> (h = h' <-> s = s').
Proof.
  intros b e h h' s s' W A. revert h' s'. induction A as [|w i h s E A IH]; intros h' s' B; inversion B as [|w' i' h2 s2 E2 B2]; subst.
  - tauto.
  - split; discriminate.
  - split; discriminate.
  - destruct (IH _ _ B2) as [I1 I2]. split; intro X; injection X as -> X.
    + f_equal; [congruence|auto].
    + f_equal; [eapply enc_inj; eauto|auto].
Qed.
Lemma samehist_enc : forall b e h h' s s', encb b e -> codes e h s -> codes e h' s' -> same_hist string_dec h h' = same_hist Nat.eq_dec s s'.
Proof.
  intros b e h h' s s' W A B. destruct (codes_same b e h h' s s' W A B) as [I1 I2]. unfold same_hist.
  destruct (list_eq_dec string_dec h h'), (list_eq_dec Nat.eq_dec s s'); intuition congruence.
Qed.
Lemma same_enc : forall b e h h' s s' w w' i i', encb b e -> codes e h s -> codes e h' s' -> enc_find w e = Some i -> enc_find w' e = Some i' ->
  same string_dec h h' w w' = same Nat.eq_dec s s' i i'.
Proof.
  intros b e h h' s s' w w' i i' W A B C D. pose proof (samehist_enc b e h h' s s' W A B) as S. unfold same_hist in S. unfold same.
  destruct (list_eq_dec string_dec h h'), (list_eq_dec Nat.eq_dec s s'); try discriminate; auto.
  destruct (string_dec w w') as [->|N], (Nat.eq_dec i i') as [->|N']; auto; [congruence|]. exfalso. apply N. eapply enc_inj; eauto.
Qed.
Lemma after_enc : forall b e, encb b e -> forall ops iops, Forall2 (op_enc e) ops iops -> forall h s w i cur, codes e h s -> enc_find w e = Some i ->
  ngram_after string_dec h w ops cur = ngram_after Nat.eq_dec s i iops cur.
Proof.
  intros b e W ops iops F. induction F as [|o o' ops iops A F IH]; intros h s w i cur C E; auto.
  destruct o as [h' w' c|h' w' cs cst], o' as [s' i' c'|s' i' cs' cst']; cbn [op_enc] in A; try tauto; cbn [ngram_after].
  - destruct A as (A1 & A2 & ->). rewrite (same_enc b e h h' s s' w w' i i') by auto. apply IH; auto.
  - destruct A as (A1 & A2 & -> & ->). rewrite (same_enc b e h h' s s' w w' i i') by auto. apply IH; auto.
Qed.
Lemma hist_enc : forall b e, encb b e -> forall ops iops, Forall2 (op_enc e) ops iops -> forall h s cur, codes e h s ->
  hist_after string_dec h ops cur = hist_after Nat.eq_dec s iops cur.
Proof.
  intros b e W ops iops F. induction F as [|o o' ops iops A F IH]; intros h s cur C; auto.
  destruct o as [h' w' c|h' w' cs cst], o' as [s' i' c'|s' i' cs' cst']; cbn [op_enc] in A; try tauto; cbn [hist_after].
  - destruct A as (A1 & A2 & ->). rewrite (samehist_enc b e h h' s s') by auto. apply IH; auto.
  - destruct A as (A1 & A2 & -> & ->). rewrite (samehist_enc b e h h' s s') by auto. apply IH; auto.
Qed.
Lemma same_true : forall (W : Type) (weq : forall a b : W, {a = b} + {a <> b}) h h' w w', same weq h h' w w' = true -> h = h' /\ w = w'.
Proof. intros W weq h h' w w'. unfold same. destruct (list_eq_dec weq h h'), (weq w w'); try discriminate; auto. Qed.
Lemma after_untouched : forall h w ops cur, (forall o, In o ops -> ~ (exists x, In x (h ++ [w]) /\ ~ In x (op_words o)) -> False) ->
  ngram_after string_dec h w ops cur = cur.
Proof.
  intros h w. induction ops as [|o ops IH]; intros cur H; auto.
  assert (S : forall h' w', op_words o = h' ++ [w'] -> same string_dec h h' w w' = false).
  { intros h' w' E. destruct (same string_dec h h' w w') eqn:X; auto. apply same_true in X. destruct X as [-> ->]. exfalso.
    apply (H o (or_introl eq_refl)). rewrite E. intros (x & A & B). auto. }
  destruct o as [h' w' c|h' w' cs cst]; cbn [ngram_after]; rewrite (S h' w' eq_refl); apply IH; intros; eapply H; eauto; now right.
Qed.
Lemma hist_untouched : forall h ops cur, (forall o, In o ops -> ~ (exists x, In x h /\ ~ In x (op_words o)) -> False) ->
  hist_after string_dec h ops cur = cur.
Proof.
  intros h. induction ops as [|o ops IH]; intros cur H; auto.
  assert (S : forall h' w', op_words o = h' ++ [w'] -> same_hist string_dec h h' = false).
  { intros h' w' E. unfold same_hist. destruct (list_eq_dec string_dec h h') as [->|]; auto. exfalso.
    apply (H o (or_introl eq_refl)). rewrite E. intros (x & A & B). apply B. rewrite in_app_iff. auto. }
  destruct o as [h' w' c|h' w' cs cst]; cbn [hist_after]; rewrite (S h' w' eq_refl); apply IH; intros; eapply H; eauto; now right.
Qed.

Lemma rel_words_known : forall t0 ops iops m o x, lmrel t0 ops iops m -> In o ops -> In x (op_words o) -> known (lenc m) x.
Proof.
  intros t0 ops iops m o x (W & T & F) I X. clear T. induction F as [|p p' ops iops A F IH]; [destruct I|].
  destruct I as [->|I]; auto. assert (G : forall h s w i, codes (lenc m) h s -> enc_find w (lenc m) = Some i -> In x (h ++ [w]) -> known (lenc m) x).
  { intros h s w i C E. rewrite in_app_iff. intros [H|[<-|[]]]; [|exists i; auto]. clear -C H. induction C; [destruct H|]. destruct H as [<-|H]; [eexists; eauto|auto]. }
  destruct o as [h' w' c|h' w' cs cst], p' as [s' i' c'|s' i' cs' cst']; cbn [op_enc] in A; try tauto; cbn [op_words] in X.
  - destruct A as (A1 & A2 & _). eapply G; eauto.
  - destruct A as (A1 & A2 & _). eapply G; eauto.
Qed.

Theorem counts_str : forall ops iops m, lmrel tab0 ops iops m ->
  (forall h w, cNgramStr w h m = Some (ngram_after string_dec h w ops 0)) /\ (forall h, cHistStr h m = Some (hist_after string_dec h ops 0)).
Proof.
  intros ops iops m R. pose proof R as (W & T & F). destruct (tab_counts iops) as (t & E & A & B). assert (t = ltab m) by congruence. subst t. split.
  - intros h w. unfold cNgramStr, HighTrg_to_Trg. destruct (HighSrc_to_Src h (lenc m)) as [[] s] eqn:G.
    + apply HighSrc_true in G. destruct (enc_find w (lenc m)) as [i|] eqn:Ew.
      * rewrite A. f_equal. symmetry. eapply after_enc; eauto.
      * f_equal. symmetry. apply after_untouched. intros o I X. apply X. exists w. split; [rewrite in_app_iff; right; now left|].
        intro Y. destruct (rel_words_known _ _ _ _ _ _ R I Y) as [k Kk]. congruence.
    + destruct (HighSrc_false _ _ _ G) as (x & I & N). f_equal. symmetry. apply after_untouched. intros o Io X. apply X. exists x.
      split; [rewrite in_app_iff; auto|]. intro Y. destruct (rel_words_known _ _ _ _ _ _ R Io Y) as [k Kk]. congruence.
  - intros h. unfold cHistStr. destruct (HighSrc_to_Src h (lenc m)) as [[] s] eqn:G.
    + apply HighSrc_true in G. rewrite B. f_equal. symmetry. eapply hist_enc; eauto.
    + destruct (HighSrc_false _ _ _ G) as (x & I & N). f_equal. symmetry. apply hist_untouched. intros o Io X. apply X. exists x.
      split; auto. intro Y. destruct (rel_words_known _ _ _ _ _ _ R Io Y) as [k Kk]. congruence.
Qed.

Lemma lmrel0 : lmrel tab0 [] [] lm0.
Proof. split; [apply encwf0|]. split; [reflexivity|constructor]. Qed.
Lemma specials_known : forall x, In x specials -> known lm_enc0 x.
Proof. intros x H. cbn in H. repeat (destruct H as [<-|H]; [eexists; reflexivity|]). destruct H. Qed.

Theorem lm_counts : forall ops, no_new_repeats string_dec specials ops -> exists m, lm_run ops lm0 = Some m /\
  (forall h w, cNgramStr w h m = Some (ngram_after string_dec h w ops 0)) /\ (forall h, cHistStr h m = Some (hist_after string_dec h ops 0)).
Proof.
  intros ops C. destruct (lm_run_ok ops tab0 [] [] lm0 specials tab0_wf lmrel0 specials_known C) as (m & iops & E & R & _). exists m. split; auto.
  eapply counts_str; eauto.
Qed.
Lemma incrs_no_new : forall evs k, no_new_repeats string_dec k (incrs evs).
Proof. induction evs as [|e evs IH]; intro k; cbn; auto. Qed.
