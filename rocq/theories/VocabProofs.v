From Coq Require Import Ascii String Arith NArith List Bool Lia Permutation.
From Verif Require Import TextSpec TextModel TextProofs AMap VocabSpec VocabModel.
Import ListNotations.

(** ** decimal numbers *)
Lemma dval_digit : forall d, d < 10 -> dval (digit d) = Some d.
Proof. intros d H. do 10 (destruct d as [|d]; [reflexivity|]). lia. Qed.
Lemma digits_dec_aux : forall f n acc, n < f -> digits (dec_aux f n acc) 0 = digits acc (N.of_nat n).
Proof.
  induction f as [|f IH]; intros n acc H; [lia|]. cbn [dec_aux]. 
  assert (M : n mod 10 < 10) by (apply Nat.mod_upper_bound; lia).
  assert (DM : n = 10 * (n / 10) + n mod 10) by (apply Nat.div_mod; lia).
  destruct (Nat.eqb_spec (n / 10) 0) as [Z|Z].
  - cbn [digits]. rewrite dval_digit by auto. f_equal. rewrite Z in DM. lia.
  - rewrite IH.
    + cbn [digits]. rewrite dval_digit by auto. f_equal. lia.
    + assert (n / 10 < n) by (apply Nat.div_lt; lia). lia.
Qed.
Lemma dec_aux_shape : forall f n acc, Forall (fun c => exists d, d < 10 /\ c = digit d) acc -> Forall (fun c => exists d, d < 10 /\ c = digit d) (dec_aux f n acc).
Proof.
  induction f as [|f IH]; intros n acc H; auto. cbn [dec_aux].
  assert (G : Forall (fun c => exists d, d < 10 /\ c = digit d) (digit (n mod 10) :: acc)).
  { constructor; auto. exists (n mod 10). split; auto. apply Nat.mod_upper_bound. lia. }
  destruct (n / 10 =? 0); auto.
Qed.
Lemma dec_shape : forall n, Forall (fun c => exists d, d < 10 /\ c = digit d) (dec n).
Proof. intro n. apply dec_aux_shape. constructor. Qed.
Lemma dec_ne : forall n, dec n <> [].
Proof.
  intro n. unfold dec. cbn [dec_aux]. destruct (n / 10 =? 0); [discriminate|].
  assert (G : forall f m acc, acc <> [] -> dec_aux f m acc <> []).
  { induction f; intros m acc H; auto. cbn [dec_aux]. destruct (m / 10 =? 0); [discriminate|]. apply IHf. discriminate. }
  apply G. discriminate.
Qed.
Lemma atoi_dec : forall n, (N.of_nat n <= INT_MAX)%N -> atoi (dec n) = Some n.
Proof.
  intros n H. unfold atoi. pose proof (dec_shape n) as S. pose proof (digits_dec_aux (Datatypes.S n) n [] ltac:(lia)) as D. fold (dec n) in D. simpl digits in D at 2.
  destruct (dec n) as [|c r]; [|].
  - rewrite D. rewrite (proj2 (N.leb_le _ _) H). now rewrite Nnat.Nat2N.id.
  - inversion S as [|? ? (d & Hd & ->)]; subst.
    assert (Ascii.eqb (digit d) "-"%char = false /\ Ascii.eqb (digit d) "+"%char = false) as [-> ->].
    { do 10 (destruct d as [|d]; [split; reflexivity|]). lia. }
    rewrite D. rewrite (proj2 (N.leb_le _ _) H). now rewrite Nnat.Nat2N.id.
Qed.
Lemma digit_clean : forall d, d < 10 -> digit d <> SP /\ digit d <> NL /\ digit d <> NUL.
Proof. intros d H. do 10 (destruct d as [|d]; [repeat split; discriminate|]). lia. Qed.

(** ** positions *)
Lemma position_some : forall names w i, NoDup names -> (position w names = Some i <-> nth_error names i = Some w).
Proof.
  induction names as [|x r IH]; intros w i ND; simpl.
  - split; [discriminate|destruct i; discriminate].
  - inversion ND; subst. destruct (str_dec w x) as [->|N].
    + split; intro H; [inversion H; reflexivity|]. destruct i; auto. simpl in H. apply nth_error_In in H. contradiction.
    + destruct i; simpl; [split; intro H; [destruct (position w r); discriminate|congruence]|].
      rewrite <- IH by auto. destruct (position w r); simpl; split; congruence.
Qed.
Lemma position_none : forall names w, position w names = None <-> ~ In w names.
Proof.
  induction names as [|x r IH]; intros w; simpl; [tauto|]. destruct (str_dec w x) as [->|N].
  - split; [discriminate|]. intro H. exfalso. auto.
  - specialize (IH w). destruct (position w r); simpl; split; intro H; try discriminate; auto.
    + exfalso. apply H. right. destruct (in_dec str_dec w r) as [X|X]; auto. apply IH in X. discriminate.
    + intros [E|X]; [congruence|]. now apply IH in X.
Qed.
Lemma position_app : forall names w x, position w (names ++ [x]) =
  match position w names with Some i => Some i | None => if str_dec w x then Some (length names) else None end.
Proof.
  induction names as [|y r IH]; intros w x; simpl; [destruct (str_dec w x); auto|]. destruct (str_dec w y); auto. rewrite IH.
  destruct (position w r); auto. destruct (str_dec w x); auto.
Qed.

(** ** what a vocabulary holds *)
Definition holds (v : voc) (names : list str) : Prop :=
  NoDup names /\ awf (s2i v) /\ (forall w, aget str_dec w (s2i v) = position w names) /\
  (forall i, aget Nat.eq_dec i (i2s v) = nth_error names i) /\ length (s2i v) = length names.

Lemma holds_clear : holds clear_voc reserved.
Proof.
  split; [|split; [|split; [|split]]].
  - repeat constructor; simpl; intuition discriminate.
  - repeat apply aset_wf. constructor.
  - intro w. unfold clear_voc, vput. cbn [s2i]. rewrite !aget_aset. cbn [aget]. unfold reserved. cbn [position].
    destruct (str_dec w (T "<UNUSED_WORD>")) as [->|N1]; [reflexivity|]. destruct (str_dec w (T "UNKNOWN_WORD")) as [->|N2]; [reflexivity|].
    destruct (str_dec w (T "NULL")); reflexivity.
  - intro i. do 3 (destruct i as [|i]; [reflexivity|]). simpl. destruct i; reflexivity.
  - reflexivity.
Qed.
Lemma add_name_nodup : forall names w, NoDup names -> NoDup (add_name names w).
Proof.
  intros names w ND. unfold add_name. destruct (in_dec str_dec w names) as [|N]; auto.
  apply (Permutation_NoDup (l := w :: names)); [apply Permutation_cons_append|]. constructor; auto.
Qed.
Lemma holds_add : forall v names w, holds v names -> holds (snd (addSymbol w v)) (add_name names w) /\
  position w (add_name names w) = Some (fst (addSymbol w v)).
Proof.
  intros v names w (ND & WF & HS & HI & HL). unfold addSymbol, add_name. rewrite HS. destruct (in_dec str_dec w names) as [I|N].
  - destruct (position w names) eqn:P; [|apply position_none in P; contradiction]. simpl. split; [repeat split; auto|auto].
  - rewrite (proj2 (position_none names w) N). cbv zeta. unfold vput. cbn [fst snd]. split.
    + split; [|split; [|split; [|split]]]; cbn [s2i i2s].
      * apply (Permutation_NoDup (l := w :: names)); [apply Permutation_cons_append|]. constructor; auto.
      * now apply aset_wf.
      * intro w'. rewrite aget_aset, position_app, HS, HL. destruct (str_dec w' w) as [->|N']; [now rewrite (proj2 (position_none names w) N)|].
        destruct (position w' names); auto.
      * intro i. rewrite aget_aset, HI, HL. destruct (Nat.eq_dec i (length names)) as [->|N'].
        -- rewrite nth_error_app2, Nat.sub_diag by lia. reflexivity.
        -- destruct (lt_dec i (length names)); [now rewrite nth_error_app1|].
           rewrite (proj2 (nth_error_None names i)) by lia. symmetry. apply nth_error_None. rewrite app_length. simpl. lia.
      * rewrite aset_length, HS, (proj2 (position_none names w) N), app_length, HL. simpl. lia.
    + rewrite position_app, (proj2 (position_none names w) N), HL. destruct (str_dec w w); congruence.
Qed.

(** ** saving and loading *)
Definition clean_word (w : str) : Prop := w <> [] /\ ~ In SP w /\ ~ In NL w /\ ~ In NUL w.

Lemma words_entry : forall i w, clean_word w -> words (fun c => Ascii.eqb c SP) (dec i ++ SP :: w) = [dec i; w].
Proof.
  intros i w (NE & S & _ & _). rewrite words_token.
  - rewrite words_sep by reflexivity. rewrite <- (app_nil_r w) at 1. rewrite words_token; auto.
    apply forallb_forall. intros c Hc. apply negb_true_iff, Ascii.eqb_neq. intros ->. auto.
  - apply dec_ne.
  - apply forallb_forall. intros c Hc. pose proof (dec_shape i) as F. rewrite Forall_forall in F. destruct (F c Hc) as (d & Hd & ->).
    apply negb_true_iff, Ascii.eqb_neq. now apply digit_clean.
  - reflexivity.
Qed.
Lemma good_entry : forall i w, clean_word w -> good_line (dec i ++ SP :: w).
Proof.
  intros i w (NE & S & N1 & N2). pose proof (dec_shape i) as F. rewrite Forall_forall in F.
  split; intro H; apply in_app_iff in H; (destruct H as [H|[H|H]]; [destruct (F _ H) as (d & Hd & E); destruct (digit_clean d Hd) as (A & B & C); congruence|discriminate|auto]).
Qed.
Lemma print_as_file : forall l, print_entries l = file_of (map (fun e => dec (snd e) ++ SP :: fst e) l).
Proof.
  intro l. unfold print_entries, file_of. rewrite map_map. f_equal. apply map_ext. intros [w i]. simpl. rewrite <- app_assoc. reflexivity.
Qed.
Lemma load_entries : forall l v, Forall (fun e => clean_word (fst e) /\ (N.of_nat (snd e) <= INT_MAX)%N) l ->
  load_lines (map (fun e => dec (snd e) ++ SP :: fst e) l) v = Some (LOk (fold_left (fun v e => vput (fst e) (snd e) v) l v)).
Proof.
  induction l as [|[w i] l IH]; intros v F; [reflexivity|]. inversion F as [|? ? [C B] F']; subst. cbn [fst snd] in *.
  cbn [map load_lines fst snd]. rewrite get_NF_words, words_entry by auto. cbn [length]. change (1 <? 2) with true. change ((2 =? 2) || (2 =? 3)) with true. cbn iota.
  rewrite !dollar_words, words_entry by auto. cbn [nth]. rewrite atoi_dec by auto. rewrite IH by auto. reflexivity.
Qed.

Lemma fold_vput_s2i : forall l v w, awf l -> aget str_dec w (s2i (fold_left (fun v e => vput (fst e) (snd e) v) l v)) =
  match aget str_dec w l with Some i => Some i | None => aget str_dec w (s2i v) end.
Proof.
  induction l as [|[w0 i0] l IH]; intros v w W; [reflexivity|]. inversion W; subst. cbn [fold_left fst snd]. rewrite IH by auto.
  cbn [vput s2i aget]. rewrite aget_aset. destruct (str_dec w w0) as [->|N]; auto.
  rewrite (proj2 (aget_none str_dec w0 l)); auto.
Qed.
Lemma fold_vput_i2s : forall l v i, NoDup (map snd l) -> aget Nat.eq_dec i (i2s (fold_left (fun v e => vput (fst e) (snd e) v) l v)) =
  match find (fun e => Nat.eqb (snd e) i) l with Some e => Some (fst e) | None => aget Nat.eq_dec i (i2s v) end.
Proof.
  induction l as [|[w0 i0] l IH]; intros v i ND; [reflexivity|]. inversion ND; subst. cbn [fold_left fst snd]. rewrite IH by auto.
  cbn [vput i2s find snd]. rewrite aget_aset. destruct (Nat.eqb_spec i0 i) as [->|N].
  - destruct (find (fun e => Nat.eqb (snd e) i) l) eqn:E.
    + apply find_some in E. destruct E as [E1 E2]. apply Nat.eqb_eq in E2. exfalso. apply H1. simpl. rewrite <- E2. now apply in_map.
    + destruct (Nat.eq_dec i i); [reflexivity|congruence].
  - destruct (find (fun e => Nat.eqb (snd e) i) l); auto. destruct (Nat.eq_dec i i0); congruence.
Qed.
Lemma fold_vput_wf : forall l v, awf (s2i v) -> awf (s2i (fold_left (fun v e => vput (fst e) (snd e) v) l v)).
Proof. induction l as [|e l IH]; intros v H; auto. cbn [fold_left]. apply IH. simpl. now apply aset_wf. Qed.

Lemma holds_entries : forall v names, holds v names -> forall w i, In (w, i) (s2i v) <-> nth_error names i = Some w.
Proof.
  intros v names (ND & WF & HS & HI & HL) w i. rewrite <- position_some by auto. rewrite <- HS. split.
  - now apply aget_in. - apply aget_some_in.
Qed.
Lemma holds_snd_nodup : forall v names, holds v names -> NoDup (map snd (s2i v)).
Proof.
  intros v names H. pose proof (holds_entries v names H) as E. destruct H as (ND & WF & _).
  assert (G : forall l, (forall w i, In (w, i) l -> nth_error names i = Some w) -> NoDup (map fst l) -> NoDup (map snd l)).
  { induction l as [|[w i] l IH]; intros Hl N; simpl; [constructor|]. inversion N; subst. constructor.
    - intro X. apply in_map_iff in X. destruct X as ([w' i'] & E1 & E2). simpl in E1. subst i'.
      assert (nth_error names i = Some w) by (apply Hl; now left). assert (nth_error names i = Some w') by (apply Hl; now right).
      assert (w' = w) by congruence. subst w'. apply H1. simpl. apply in_map_iff. exists (w, i). auto.
    - apply IH; auto. intros; apply Hl; now right. }
  apply G; auto. intros w i Hi. now apply E.
Qed.

Lemma map_unique_size : forall (l l' : list (str * nat)), awf l -> awf l' -> (forall w, aget str_dec w l = aget str_dec w l') -> length l = length l'.
Proof.
  intros l l' W W' H. assert (P : Permutation (map fst l) (map fst l')).
  { apply NoDup_Permutation; auto. intro w. split; intro I.
    - destruct (in_dec str_dec w (map fst l')); auto. exfalso. apply (aget_none str_dec w l') in n. rewrite <- H in n. apply aget_none in n. auto.
    - destruct (in_dec str_dec w (map fst l)); auto. exfalso. apply (aget_none str_dec w l) in n. rewrite H in n. apply aget_none in n. auto. }
  apply Permutation_length in P. now rewrite !map_length in P.
Qed.

Theorem reload_holds : forall v names l, holds v names -> (exists r, names = reserved ++ r) -> Permutation (s2i v) l ->
  Forall clean_word names -> (N.of_nat (length names) <= INT_MAX + 1)%N ->
  exists v', loadVocab (print_entries l) = Some (LOk v') /\ holds v' names.
Proof.
  intros v names l H [r ER] P C B. pose proof H as (ND & WF & HS & HI & HL).
  assert (WL : awf l) by (unfold awf; eapply Permutation_NoDup; [apply Permutation_map; exact P|exact WF]).
  assert (EL : forall w i, In (w, i) l <-> nth_error names i = Some w).
  { intros w i. rewrite <- (holds_entries v names H). split; intro X; eapply Permutation_in; try exact X; auto. now apply Permutation_sym. }
  assert (FL : Forall (fun e => clean_word (fst e) /\ (N.of_nat (snd e) <= INT_MAX)%N) l).
  { apply Forall_forall. intros [w i] X. apply EL in X. cbn [fst snd]. rewrite Forall_forall in C. split; [apply C; eapply nth_error_In; eauto|].
    assert (i < length names) by (apply nth_error_Some; congruence). lia. }
  exists (fold_left (fun v e => vput (fst e) (snd e) v) l clear_voc). split.
  { unfold loadVocab. rewrite print_as_file, read_lines_ok.
    - now apply load_entries.
    - apply Forall_forall. intros x X. apply in_map_iff in X. destruct X as ([w i] & <- & X). rewrite Forall_forall in FL. apply good_entry. apply (FL _ X). }
  assert (S2 : forall w, aget str_dec w (s2i (fold_left (fun v e => vput (fst e) (snd e) v) l clear_voc)) = position w names).
  { intro w. rewrite fold_vput_s2i by auto. rewrite (aget_perm str_dec (s2i v) l w WF P), HS. destruct (position w names) eqn:E; auto.
    destruct holds_clear as (_ & _ & HC & _). rewrite HC. apply position_none. apply position_none in E. rewrite ER in E. intro X. apply E, in_app_iff. auto. }
  assert (W2 : awf (s2i (fold_left (fun v e => vput (fst e) (snd e) v) l clear_voc))) by (apply fold_vput_wf, holds_clear).
  split; [exact ND|]. split; [exact W2|]. split; [exact S2|]. split.
  - intro i. rewrite fold_vput_i2s.
    + destruct (find (fun e => Nat.eqb (snd e) i) l) as [[w i']|] eqn:E.
      * apply find_some in E. destruct E as [E1 E2]. apply Nat.eqb_eq in E2. cbn [fst snd] in *. subst i'. symmetry. now apply EL.
      * destruct holds_clear as (_ & _ & _ & HC & _). rewrite HC. destruct (nth_error names i) as [w|] eqn:En.
        -- exfalso. assert (X : In (w, i) l) by now apply EL. apply (find_none _ _ E) in X. cbn [snd] in X. rewrite Nat.eqb_refl in X. discriminate.
        -- rewrite ER in En. apply nth_error_None in En. rewrite app_length in En. apply nth_error_None. lia.
    + eapply Permutation_NoDup; [apply Permutation_map; exact P|]. eapply holds_snd_nodup; eauto.
  - rewrite <- HL. apply map_unique_size; auto. intro w. now rewrite S2, HS.
Qed.

(** ** histories *)
Lemma position_mono : forall ws names w i, position w names = Some i -> position w (fold_left add_name ws names) = Some i.
Proof.
  induction ws as [|x ws IH]; intros names w i H; auto. cbn [fold_left]. apply IH. unfold add_name. destruct (in_dec str_dec x names); auto.
  rewrite position_app, H. auto.
Qed.
Lemma holds_adds : forall ws v names, holds v names -> holds (snd (strVectorToIndexVector ws v)) (fold_left add_name ws names) /\
  map Some (fst (strVectorToIndexVector ws v)) = map (fun w => position w (fold_left add_name ws names)) ws.
Proof.
  induction ws as [|w ws IH]; intros v names H; [split; auto|].
  cbn [strVectorToIndexVector fold_left map]. destruct (holds_add v names w H) as [H1 P1]. destruct (addSymbol w v) as [i v1]. cbn [fst snd] in *.
  destruct (IH v1 _ H1) as [H2 P2]. destruct (strVectorToIndexVector ws v1) as [is v2]. cbn [fst snd map] in *. split; auto.
  f_equal; auto. symmetry. now apply position_mono.
Qed.
Lemma names_prefix : forall ws names, exists r, fold_left add_name ws names = names ++ r.
Proof.
  induction ws as [|w ws IH]; intros names; [exists []; now rewrite app_nil_r|]. cbn [fold_left]. destruct (IH (add_name names w)) as [r E]. rewrite E.
  unfold add_name. destruct (in_dec str_dec w names); [eauto|]. rewrite <- app_assoc. eauto.
Qed.
Lemma names_in : forall ws names w, In w (fold_left add_name ws names) <-> In w names \/ In w ws.
Proof.
  induction ws as [|x ws IH]; intros names w; simpl; [tauto|]. rewrite IH. unfold add_name. destruct (in_dec str_dec x names).
  - intuition; subst; auto. - rewrite in_app_iff. simpl. tauto.
Qed.

Theorem vocab_after_adds : forall ws, let v := snd (strVectorToIndexVector ws clear_voc) in let names := names_after ws in
  NoDup names /\ (forall w, In w names <-> In w reserved \/ In w ws) /\ vocabSize v = length names /\
  map Some (fst (strVectorToIndexVector ws clear_voc)) = map (fun w => position w names) ws /\
  (forall w, stringToWordIndex w v = match position w names with Some i => i | None => 1 end) /\
  (forall i, wordIndexToString i v = nth i names (T "UNKNOWN_WORD")) /\
  (forall w, existSymbol w v = true <-> In w names).
Proof.
  intros ws v names. destruct (holds_adds ws clear_voc reserved holds_clear) as [(ND & WF & HS & HI & HL) P].
  fold v names in ND, HS, HI, HL, P, WF. change (fold_left add_name ws reserved) with names in *.
  split; auto. split; [intro w; apply names_in|]. split; auto. split; auto. split; [|split].
  - intro w. unfold stringToWordIndex. now rewrite HS.
  - intro i. unfold wordIndexToString. rewrite HI. symmetry. destruct (nth_error names i) eqn:E; [now apply nth_error_nth|]. apply nth_overflow. now apply nth_error_None.
  - intro w. unfold existSymbol. rewrite HS. destruct (position w names) eqn:E; split; intro H; try discriminate; auto.
    + destruct (in_dec str_dec w names); auto. apply position_none in n0. congruence.
    + apply position_none in E. contradiction.
Qed.

Theorem vocab_bijection : forall ws, let v := snd (strVectorToIndexVector ws clear_voc) in
  (forall a b, existSymbol a v = true -> existSymbol b v = true -> stringToWordIndex a v = stringToWordIndex b v -> a = b) /\
  (forall w, existSymbol w v = true -> wordIndexToString (stringToWordIndex w v) v = w) /\
  (forall i, i < vocabSize v -> existSymbol (wordIndexToString i v) v = true /\ stringToWordIndex (wordIndexToString i v) v = i) /\
  (forall w, existSymbol w v = false -> stringToWordIndex w v = 1) /\
  (forall ws' w, existSymbol w v = true -> stringToWordIndex w (snd (strVectorToIndexVector (ws ++ ws') clear_voc)) = stringToWordIndex w v).
Proof.
  intros ws v. destruct (vocab_after_adds ws) as (ND & IN & SZ & _ & HS & HI & HE). fold v in SZ, HS, HI, HE. set (names := names_after ws) in *.
  assert (INV : forall w, existSymbol w v = true -> wordIndexToString (stringToWordIndex w v) v = w).
  { intros w E. rewrite HI, HS. apply HE in E. destruct (position w names) eqn:P; [|apply position_none in P; contradiction].
    apply position_some in P; auto. now apply nth_error_nth. }
  split; [|split; [exact INV|split; [|split]]].
  - intros a b Ea Eb E. rewrite <- (INV a Ea), <- (INV b Eb), E. reflexivity.
  - intros i Hi. rewrite SZ in Hi. assert (X : nth_error names i = Some (wordIndexToString i v)) by (rewrite HI; now apply nth_error_nth').
    split; [apply HE; eapply nth_error_In; eauto|]. rewrite HS. apply position_some in X; auto. now rewrite X.
  - intros w E. rewrite HS. destruct (position w names) eqn:P; auto. exfalso.
    assert (existSymbol w v = true); [|congruence]. apply HE. destruct (in_dec str_dec w names); auto. apply position_none in n0. congruence.
  - intros ws' w E. destruct (vocab_after_adds (ws ++ ws')) as (_ & _ & _ & _ & HS' & _). rewrite HS', HS. apply HE in E.
    destruct (position w names) as [i|] eqn:P; [|apply position_none in P; contradiction].
    unfold names_after. rewrite fold_left_app. fold (names_after ws). fold names. now rewrite (position_mono ws' names w i P).
Qed.

(** histories of additions and save/reload cycles: reloading is unobservable *)
Inductive vop := Add (w : str) | Reload.
(** any order in which the map may be iterated *)
Inductive vrun : list vop -> voc -> voc -> Prop :=
| vr_nil : forall v, vrun [] v v
| vr_add : forall w ops v v', vrun ops (snd (addSymbol w v)) v' -> vrun (Add w :: ops) v v'
| vr_reload : forall ops v l v1 v', Permutation (s2i v) l -> loadVocab (print_entries l) = Some (LOk v1) -> vrun ops v1 v' -> vrun (Reload :: ops) v v'.
Definition added (ops : list vop) : list str := flat_map (fun o => match o with Add w => [w] | Reload => [] end) ops.

Lemma reserved_clean : Forall clean_word reserved.
Proof. repeat constructor; simpl; try discriminate; intuition discriminate. Qed.

Lemma vrun_holds : forall ops v v' names, vrun ops v v' -> holds v names -> (exists r, names = reserved ++ r) ->
  Forall clean_word names -> Forall clean_word (added ops) -> (N.of_nat (length names + length (added ops)) <= INT_MAX + 1)%N ->
  holds v' (fold_left add_name (added ops) names).
Proof.
  intros ops v v' names R. revert names. induction R as [v|w ops v v' R IH|ops v l v1 v' P L R IH]; intros names H EX C CA B.
  - exact H.
  - cbn [added flat_map app] in *. cbn [fold_left]. inversion CA; subst. apply IH; auto.
    + apply holds_add; auto.
    + destruct EX as [r ->]. unfold add_name. destruct (in_dec str_dec w (reserved ++ r)); [eauto|]. rewrite <- app_assoc. eauto.
    + unfold add_name. destruct (in_dec str_dec w names); auto. apply Forall_app. auto.
    + unfold add_name. destruct (in_dec str_dec w names); [|rewrite app_length]; cbn [length] in *; fold (added ops) in *; lia.
  - cbn [added flat_map app] in *. destruct (reload_holds v names l H EX P C ltac:(lia)) as (v2 & E & H2).
    assert (v2 = v1) by congruence. subst v2. apply IH; auto.
Qed.
Lemma vrun_exists : forall ops v names, holds v names -> (exists r, names = reserved ++ r) ->
  Forall clean_word names -> Forall clean_word (added ops) -> (N.of_nat (length names + length (added ops)) <= INT_MAX + 1)%N ->
  exists v', vrun ops v v'.
Proof.
  induction ops as [|[w|] ops IH]; intros v names H EX C CA B.
  - exists v. constructor.
  - cbn [added flat_map app] in *. inversion CA; subst. destruct (IH (snd (addSymbol w v)) (add_name names w)) as [v' R]; auto.
    + apply holds_add; auto.
    + destruct EX as [r ->]. unfold add_name. destruct (in_dec str_dec w (reserved ++ r)); [eauto|]. rewrite <- app_assoc. eauto.
    + unfold add_name. destruct (in_dec str_dec w names); auto. apply Forall_app. auto.
    + unfold add_name. destruct (in_dec str_dec w names); [|rewrite app_length]; cbn [length] in *; fold (added ops) in *; lia.
    + exists v'. now constructor.
  - destruct (reload_holds v names (s2i v) H EX (Permutation_refl _) C ltac:(lia)) as (v2 & E & H2).
    destruct (IH v2 names) as [v' R]; auto. exists v'. econstructor; eauto.
Qed.

Theorem reload_roundtrip : forall ws l, Forall clean_word ws -> (N.of_nat (3 + length ws) <= INT_MAX + 1)%N ->
  let v := snd (strVectorToIndexVector ws clear_voc) in Permutation (s2i v) l ->
  exists v', loadVocab (print_entries l) = Some (LOk v') /\ vocabSize v' = vocabSize v /\
    (forall w, stringToWordIndex w v' = stringToWordIndex w v /\ existSymbol w v' = existSymbol w v) /\
    (forall i, wordIndexToString i v' = wordIndexToString i v).
Proof.
  intros ws l C B v P. destruct (holds_adds ws clear_voc reserved holds_clear) as [H _]. fold v in H.
  set (names := fold_left add_name ws reserved) in *.
  assert (LN : forall us ns, length (fold_left add_name us ns) <= length ns + length us).
  { induction us as [|u us IH]; intros ns; simpl; [lia|]. specialize (IH (add_name ns u)). unfold add_name in *. destruct (in_dec str_dec u ns); [lia|]. rewrite app_length in IH. simpl in IH. lia. }
  assert (CN : Forall clean_word names).
  { apply Forall_forall. intros w Hw. apply names_in in Hw. pose proof reserved_clean as RC. rewrite Forall_forall in *. destruct Hw; auto. }
  destruct (reload_holds v names l H (names_prefix ws reserved) P CN) as (v' & E & H').
  { specialize (LN ws reserved). fold names in LN. simpl in LN. lia. }
  exists v'. split; auto. destruct H as (_ & _ & HS & HI & HL), H' as (_ & _ & HS' & HI' & HL').
  split; [unfold vocabSize; congruence|]. split.
  - intro w. unfold stringToWordIndex, existSymbol. now rewrite HS, HS'.
  - intro i. unfold wordIndexToString. now rewrite HI, HI'.
Qed.

Theorem history_observations : forall ops v, Forall clean_word (added ops) -> (N.of_nat (3 + length (added ops)) <= INT_MAX + 1)%N ->
  vrun ops clear_voc v -> let names := names_after (added ops) in
  vocabSize v = length names /\
  (forall w, stringToWordIndex w v = match position w names with Some i => i | None => 1 end) /\
  (forall i, wordIndexToString i v = nth i names (T "UNKNOWN_WORD")).
Proof.
  intros ops v C B R names. pose proof (vrun_holds ops clear_voc v reserved R holds_clear) as H.
  destruct H as (_ & _ & HS & HI & HL); auto.
  { exists []. reflexivity. } { apply reserved_clean. }
  fold (names_after (added ops)) in *. fold names in HS, HI, HL. split; auto. split.
  - intro w. unfold stringToWordIndex. now rewrite HS.
  - intro i. unfold wordIndexToString. rewrite HI. symmetry. destruct (nth_error names i) eqn:E; [now apply nth_error_nth|]. apply nth_overflow. now apply nth_error_None.
Qed.
