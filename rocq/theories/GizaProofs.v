(** Alignment files: reading what was printed, operating on two files. *)
From Coq Require Import Ascii String Arith ZArith NArith QArith List Bool Lia.
From Verif Require Import TextSpec TextModel TextProofs VocabSpec VocabModel VocabProofs AligSpec AligModel AligProofs PmModel PmText GfmtModel GfmtProofs GfmtText WgfSpec WgfModel WgfText GizaSpec GizaModel GizaText.
Import ListNotations.
Local Open Scope nat_scope.
Definition entry_lines (e : entry) : list str := [header_of (e_reps e); words_text (e_t e); line_of (items_of (e_ns e) (e_al e))].
Definition rd_al (e : entry) : wam := add_items 0 (items_of (e_ns e) (e_al e)) (AligModel.w_init (length (e_ns e) - 1) (length (e_t e))).
Definition rde (e : entry) : entry := mkent (e_ns e) (e_t e) (rd_al e) (rd (e_reps e)).
Lemma hash_clean : clean (T "#"). Proof. repeat split; [discriminate|..]; cbn; intuition discriminate. Qed.
Lemma header_fields : forall w, clean w -> flds (T "# " ++ w) = [T "#"; w].
Proof. intros w W. change (T "# " ++ w) with (T "#" ++ SP :: w). rewrite flds_clean_sp by apply hash_clean. now rewrite flds_one. Qed.
Lemma next_ok : forall e x b rest, wf_entry e ->
  nextGIZA x (mkstrm b (entry_lines e ++ rest)) = Some (true, rde e, mkstrm (line_of (items_of (e_ns e) (e_al e))) rest).
Proof.
  intros e x b rest (NE & PN & NO & PT & DI & DJ & SM & B). unfold nextGIZA, entry_lines. cbn [app getln s_rest negb s_buf snd]. rewrite !nfw.
  assert (H : flds (header_of (e_reps e)) = [T "#"; fmt_g (e_reps e)]) by apply header_fields, fmt_clean.
  unfold giza_header. rewrite !dol, H. cbn [length nth Nat.leb andb orb Nat.ltb Nat.eqb]. destruct (str_dec (T "#") (T "#")); [|contradiction]. cbn [orb]. rewrite (proj1 (rd_ok (e_reps e))).
  rewrite fields_from_ok by lia. cbn [skipn]. rewrite flds_words by exact PT.
  rewrite count_open_ok by lia. cbn [skipn]. pose proof (line_fields _ (items_clean (e_ns e) (e_al e) PN)) as LF. rewrite LF. rewrite count_items.
  2:{ apply Forall_forall. intros p Hp X. apply NO. rewrite <- X, <- (items_words (e_ns e) (e_al e)). now apply in_map. }
  assert (LI : length (items_of (e_ns e) (e_al e)) = length (e_ns e)) by (rewrite <- (items_words (e_ns e) (e_al e)) at 2; now rewrite map_length).
  rewrite LI. destruct (Nat.eqb_spec (length (e_ns e)) 0) as [Z|_]; [destruct (e_ns e); [contradiction|discriminate Z]|].
  rewrite <- LF. pose proof (items_pos (e_ns e) (e_al e)) as IP. rewrite DJ in IP.
  pose proof (rwl_ok (items_of (e_ns e) (e_al e)) (S (length (flds (line_of (items_of (e_ns e) (e_al e)))))) (line_of (items_of (e_ns e) (e_al e))) [] 0 (length (e_t e)) [] (AligModel.w_init (length (e_ns e) - 1) (length (e_t e))) LF IP SM) as R.
  cbn [length] in R. rewrite R; [cbn [app]; rewrite items_words; reflexivity|]. rewrite LF. clear. induction (items_of (e_ns e) (e_al e)) as [|p l IH]; cbn [map concat length]; [lia|]. rewrite app_length. unfold item_fields at 1. cbn [length]. lia.
Qed.
Lemma rd_same : forall e, wf_entry e -> wsame (e_al e) (rd_al e).
Proof.
  intros e (NE & PN & NO & PT & DI & DJ & SM & B). destruct (add_items_dims (items_of (e_ns e) (e_al e)) 0 (AligModel.w_init (length (e_ns e) - 1) (length (e_t e)))) as [D1 D2].
  cbn [AligModel.w_init wI wJ] in D1, D2. split; [split; unfold rd_al; lia|]. intros i j R. unfold rd_al.
  rewrite add_items_cell.
  - cbn [AligModel.w_init wc]. unfold item_hits. cbn [Nat.leb]. rewrite Nat.sub_0_r. destruct R as [Ri Rj]. rewrite items_nth by lia. rewrite count_word_links by exact Rj. rewrite N2Nat.id. cbn [N.add]. symmetry. apply N.mod_small, B. now split.
  - destruct R as [Ri Rj]. split; cbn [AligModel.w_init wI wJ]; lia.
  - eapply Forall_impl; [|apply items_pos]. intros p F. eapply Forall_impl; [|exact F]. intros a [A _]. exact A.
  - cbn. lia.
Qed.
Lemma rd_entry : forall e, wf_entry e -> same_entry e (rde e).
Proof. intros e W. repeat split; try apply rd_printed; try apply (proj2 (rd_same e W)); destruct (rd_same e W) as [[A B] _]; cbn [rde e_al]; congruence. Qed.
Lemma print_ok : forall e, length (e_ns e) <= S (wI (e_al e)) -> print_entry e = Some (file_of (entry_lines e)).
Proof.
  intros e H. unfold print_entry, printGIZA. rewrite giza_line_ok by exact H. unfold file_of, entry_lines. cbn [map concat]. rewrite app_nil_r, <- !app_assoc. reflexivity.
Qed.
Lemma file_of_app : forall a b, file_of (a ++ b) = file_of a ++ file_of b.
Proof. intros. unfold file_of. now rewrite map_app, concat_app. Qed.
Lemma giza_file_ok : forall l, Forall (fun e => length (e_ns e) <= S (wI (e_al e))) l -> giza_file l = Some (file_of (concat (map entry_lines l))).
Proof.
  induction l as [|e l IH]; intros F; [reflexivity|]. inversion F; subst. cbn [giza_file map concat]. rewrite print_ok, IH by assumption. now rewrite file_of_app.
Qed.
Lemma entry_good : forall e, wf_entry e -> Forall good_line (entry_lines e).
Proof.
  intros e (NE & PN & NO & PT & _). repeat constructor.
  1,2: destruct (good_app (T "# ") (fmt_g (e_reps e)) ltac:(split; cbn; intuition discriminate) (good_clean _ (fmt_clean _))) as [X Y]; assumption.
  1,2: destruct (good_words _ PT); assumption.
  all: destruct (line_good _ (items_clean (e_ns e) (e_al e) PN)); assumption.
Qed.
Lemma lines_good : forall l, Forall wf_entry l -> Forall good_line (concat (map entry_lines l)).
Proof. induction l as [|e l IH]; intros F; [constructor|]. inversion F; subst. cbn [map concat]. apply Forall_app. split; [now apply entry_good|now apply IH]. Qed.
Lemma wf_len : forall e, wf_entry e -> length (e_ns e) <= S (wI (e_al e)).
Proof. intros e (NE & PN & NO & PT & DI & _). lia. Qed.
Lemma wf_lens : forall l, Forall wf_entry l -> Forall (fun e => length (e_ns e) <= S (wI (e_al e))) l.
Proof. intros l F. eapply Forall_impl; [|exact F]. exact wf_len. Qed.
Lemma open_file : forall l, Forall wf_entry l -> s_open (file_of (concat (map entry_lines l))) = Some (mkstrm [] (concat (map entry_lines l))).
Proof. intros l F. unfold s_open. now rewrite read_lines_ok by now apply lines_good. Qed.
Lemma read_all_ok : forall l fuel x b, Forall wf_entry l -> length l < fuel -> read_all fuel x (mkstrm b (concat (map entry_lines l))) = Some (map rde l).
Proof.
  induction l as [|e l IH]; intros fuel x b F H; (destruct fuel as [|f]; [cbn [length] in H; lia|]); cbn [read_all]; [reflexivity|]. inversion F; subst. cbn [map concat]. rewrite next_ok by assumption. rewrite IH; [reflexivity|assumption|cbn [length] in H; lia].
Qed.
Lemma lines_length : forall l, length (concat (map entry_lines l)) = 3 * length l.
Proof. induction l as [|e l IH]; [reflexivity|]. cbn [map concat length]. rewrite app_length, IH. cbn [entry_lines length]. lia. Qed.
Theorem read_back : forall l, Forall wf_entry l -> exists txt l', giza_file l = Some txt /\ read_giza txt = Some l' /\ Forall2 same_entry l l'.
Proof.
  intros l F. exists (file_of (concat (map entry_lines l))), (map rde l). split; [now apply giza_file_ok, wf_lens|]. split.
  - unfold read_giza. rewrite open_file by exact F. apply read_all_ok; [exact F|]. cbn [s_rest]. rewrite lines_length. lia.
  - induction F as [|e l W F IH]; [constructor|]. constructor; [now apply rd_entry|exact IH].
Qed.
(** ** two files *)
Definition bnd (m : wam) : Prop := forall i j, (wc m i j < 2 ^ 32)%N.
Lemma bnd_put : forall m i j v, bnd m -> (v < 2 ^ 32)%N -> bnd (wput m i j v).
Proof. intros m i j v B V i' j'. rewrite wput_c. destruct (_ && _); [exact V|apply B]. Qed.
Lemma bnd_init : forall I J, bnd (AligModel.w_init I J). Proof. intros I J i j. reflexivity. Qed.
Lemma bnd_fold : forall X (f : wam -> X -> wam) l m, (forall m c, bnd m -> bnd (f m c)) -> bnd m -> bnd (fold_left f l m).
Proof. induction l as [|c l IH]; intros m H B; [exact B|]. cbn [fold_left]. apply IH; auto. Qed.
Ltac bnd1 := repeat match goal with
  | |- bnd (if ?b then _ else _) => destruct b
  | |- bnd (wput _ _ _ _) => apply bnd_put; [|try reflexivity]
  | |- bnd (w_setValue _ _ _ _) => unfold w_setValue
  | H : bnd ?m |- bnd ?m => exact H end.
Lemma bnd_set : forall m i j v, bnd m -> (v < 2 ^ 32)%N -> bnd (w_setValue m i j v).
Proof. intros m i j v B V. unfold w_setValue. destruct (_ && _); [now apply bnd_put|exact B]. Qed.
Lemma bnd_links : forall l sp m, bnd m -> bnd (add_links sp l m).
Proof. intros l sp m B. apply bnd_fold; [|exact B]. intros m' c B'. unfold add_link. destruct (_ && _ && _); [|exact B']. apply bnd_set; [exact B'|]. apply N.mod_lt. discriminate. Qed.
Lemma bnd_items : forall its sp m, bnd m -> bnd (add_items sp its m).
Proof. induction its as [|[w l] its IH]; intros sp m B; [exact B|]. cbn [add_items]. apply IH, bnd_links, B. Qed.
Lemma bnd_transpose : forall m, bnd m -> bnd (w_transpose m).
Proof. intros m B. apply bnd_fold; [|apply bnd_init]. intros m' c B'. apply bnd_put; [exact B'|apply B]. Qed.
Lemma bnd_and : forall m w, bnd m -> bnd (w_and m w).
Proof. intros m w B. unfold w_and. destruct (dims_eqb m w); [|exact B]. apply bnd_fold; [|exact B]. intros m' c B'. bnd1. Qed.
Lemma bnd_or : forall m w, bnd m -> bnd (w_or m w).
Proof. intros m w B. unfold w_or. destruct (dims_eqb m w); [|exact B]. apply bnd_fold; [|exact B]. intros m' c B'. bnd1. Qed.
Lemma bnd_sym_loop : forall pass, (forall m, bnd m -> bnd (pass m)) -> forall fuel prev cur r, bnd cur -> sym_loop pass fuel prev cur = Some r -> bnd r.
Proof.
  intros pass P. induction fuel as [|f IH]; intros prev cur r B E; cbn [sym_loop] in E; destruct (w_eqb cur prev); try (injection E as <-; exact B); [discriminate|]. eapply IH; [|exact E]. now apply P.
Qed.
Lemma bnd_grow_loop : forall pass, (forall m, bnd m -> bnd (pass m)) -> forall fuel cur r, bnd cur -> grow_loop pass fuel cur = Some r -> bnd r.
Proof.
  intros pass P. induction fuel as [|f IH]; intros cur r B E; cbn [grow_loop] in E; [discriminate|]. destruct (w_eqb cur (pass cur)); [injection E as <-; now apply P|]. eapply IH; [|exact E]. now apply P.
Qed.
Lemma bnd_add_step : forall o m c, bnd m -> bnd (add_step o m c).
Proof. intros o m [i j] B. unfold add_step. destruct (_ && _); [|exact B]. unfold w_set. now apply bnd_set. Qed.
Lemma bnd_op : forall o m w r, bnd m -> apply_op o m w = Some r -> bnd r.
Proof.
  intros o m w r B E. destruct o; cbn [apply_op] in E.
  - injection E as <-. now apply bnd_or.
  - injection E as <-. now apply bnd_and.
  - injection E as <-. unfold w_plus. destruct (dims_eqb m w); [|exact B]. apply bnd_fold; [|exact B]. intros m' c B'. apply bnd_put; [exact B'|]. apply N.mod_lt. discriminate.
  - unfold symmetr1 in E. destruct (dims_eqb m w); [|injection E as <-; exact B]. eapply bnd_sym_loop; [|apply bnd_and, B|exact E]. intros m1 B1. apply bnd_fold; [|exact B1]. intros m' [i j] B'. unfold sym1_step. bnd1.
  - unfold symmetr2 in E. destruct (dims_eqb m w); [|injection E as <-; exact B]. eapply bnd_sym_loop; [|apply bnd_and, B|exact E]. intros m1 B1. apply bnd_fold; [|exact B1]. intros m' [i j] B'. unfold sym2_step. bnd1.
  - unfold growDiagFinal in E. destruct (dims_eqb m w); [|injection E as <-; exact B]. destruct (grow_loop _ _ _) as [g|] eqn:G; [|discriminate]. injection E as <-.
    assert (BG : bnd g). { eapply bnd_grow_loop; [|apply bnd_and, B|exact G]. intros m1 B1. apply bnd_fold; [|exact B1]. intros m' [i j] B'. unfold grow_step. destruct (nz _); [|exact B']. apply bnd_fold; [|exact B']. intros. now apply bnd_add_step. }
    apply bnd_fold; [intros; now apply bnd_add_step|]. apply bnd_fold; [intros; now apply bnd_add_step|exact BG].
Qed.
Lemma apply_op_ok : forall o m w, exists r, apply_op o m w = Some r /\ same_dims r m /\ (same_dims m w -> op_spec o m w r).
Proof.
  intros o m w. assert (DD : {same_dims m w} + {~ same_dims m w}). { destruct (Nat.eq_dec (wI m) (wI w)); [destruct (Nat.eq_dec (wJ m) (wJ w))|]; [left; now split|right; intros []; contradiction|right; intros []; contradiction]. }
  destruct DD as [D|D].
  - destruct o; cbn [apply_op].
    + exists (w_or m w). split; [reflexivity|]. pose proof (proj1 (or_spec m w D)) as X. split; [exact X|]. intros _. split; [exact X|]. intros i j. apply (set_ops_links m w D i j).
    + exists (w_and m w). split; [reflexivity|]. pose proof (proj1 (and_spec m w D)) as X. split; [exact X|]. intros _. split; [exact X|]. intros i j. apply (set_ops_links m w D i j).
    + exists (w_plus m w). split; [reflexivity|]. destruct (plus_spec m w D) as [X Y]. split; [exact X|]. intros _. split; [exact X|]. exact Y.
    + destruct (symmetr1_ok m w D) as (r & E & X & A & B & C). exists r. split; [exact E|]. split; [exact X|]. intros _. split; [exact X|]. split; [split; assumption|exact C].
    + destruct (symmetr2_ok m w D) as (r & E & X & A & B & C). exists r. split; [exact E|]. split; [exact X|]. intros _. split; [exact X|]. split; [split; assumption|exact C].
    + destruct (growDiagFinal_ok m w D) as (r & E & X & A & B & C). exists r. split; [exact E|]. split; [exact X|]. intros _. split; [exact X|]. split; [split; assumption|exact C].
  - exists m. pose proof (dims_eqb_false m w D) as X. split; [|split; [split; reflexivity|contradiction]]. destruct o; cbn [apply_op]; unfold w_or, w_and, w_plus, symmetr1, symmetr2, growDiagFinal; now rewrite X.
Qed.
Lemma wsame_link : forall m m', wsame m m' -> forall i j, link m i j <-> link m' i j.
Proof.
  intros m m' [D C] i j. unfold link. pose proof (inr_dims m m' i j D) as R. split; intros [A B]; (split; [now apply R|]). - now rewrite <- C. - rewrite C; [exact B|]. now apply R.
Qed.
Lemma op_spec_same : forall o m m' w w' r, wsame m m' -> wsame w w' -> same_dims m w -> op_spec o m' w' r -> op_spec o m w r.
Proof.
  intros o m m' w w' r M W D [[D1 D2] H]. pose proof (wsame_link _ _ M) as LM. pose proof (wsame_link _ _ W) as LW. destruct M as [[M1 M2] MC]. destruct W as [_ WC].
  split; [split; congruence|]. destruct o.
  - intros i j. rewrite LM, LW. apply H.
  - intros i j. rewrite LM, LW. apply H.
  - intros i j R. rewrite H by (apply (inr_dims m m'); [split; assumption|exact R]). rewrite MC, WC by (try exact R; now apply (inr_dims m w)). reflexivity.
  - destruct H as [[H1 H2] H3]. split; [split|]; intros i j X; [apply H1; now rewrite <- LM, <- LW|rewrite LM, LW; now apply H2|apply H3; now rewrite <- LM, <- LW].
  - destruct H as [[H1 H2] H3]. split; [split|]; intros i j X; [apply H1; now rewrite <- LM, <- LW|rewrite LM, LW; now apply H2|apply H3; now rewrite <- LM, <- LW].
  - destruct H as [[H1 H2] H3]. split; [split|]; intros i j X; [apply H1; now rewrite <- LM, <- LW|rewrite LM, LW; now apply H2|apply H3; now rewrite <- LM, <- LW].
Qed.
Definition view (tr : bool) (e : entry) : entry := if tr then transposeAlig e else e.
Lemma view_seen : forall tr e, wf_entry e -> seen tr e (view tr e).
Proof.
  intros [] e (NE & _); [|reflexivity]. cbn [seen view]. destruct (e_ns e) as [|n s] eqn:E; [contradiction|]. exists n, s. split; [reflexivity|]. unfold transposeAlig. rewrite E. cbn [e_ns e_t e_al]. repeat split; apply (transpose_spec (e_al e)); assumption.
Qed.
Lemma view_al : forall tr e, wf_entry e -> wsame (e_al (view tr e)) (e_al (view tr (rde e))).
Proof.
  intros [] e W; [|now apply rd_same]. cbn [view transposeAlig e_al rde]. pose proof (rd_same e W) as [[A B] C]. destruct (transpose_spec (e_al e)) as (T1 & T2 & T3). destruct (transpose_spec (rd_al e)) as (R1 & R2 & R3).
  split; [split; congruence|]. intros i j [Ri Rj]. rewrite T1 in Ri. rewrite T2 in Rj. rewrite T3, R3; [apply C; now split|split; congruence|now split].
Qed.
Lemma view_words : forall tr e, e_ns (view tr (rde e)) = e_ns (view tr e) /\ e_t (view tr (rde e)) = e_t (view tr e).
Proof. intros [] e; split; reflexivity. Qed.
Lemma view_dims : forall tr e, wf_entry e -> S (wI (e_al (view tr e))) = length (e_ns (view tr e)) /\ wJ (e_al (view tr e)) = length (e_t (view tr e)).
Proof.
  intros [] e (NE & PN & NO & PT & DI & DJ & SM & B); [|auto]. cbn [view transposeAlig e_al e_ns e_t]. destruct (transpose_spec (e_al e)) as (T1 & T2 & _). destruct (e_ns e) as [|n s]; [contradiction|]. cbn [length] in *. split; congruence.
Qed.
Lemma combine1_ok : forall o tr a b, wf_entry a -> wf_entry b -> exists c', combine1 o tr (rde a) (rde b) = Some c' /\ e_reps c' = rd (e_reps a) /\
  wf_entry (mkent (e_ns c') (e_t c') (e_al c') (e_reps a)) /\ combined o tr a b (mkent (e_ns c') (e_t c') (e_al c') (e_reps a)).
Proof.
  intros o tr a b WA WB. pose proof (view_seen tr b WB) as SV. destruct (view_words tr b) as [VN VT]. destruct (view_dims tr b WB) as [VI VJ]. pose proof (view_al tr b WB) as VA.
  pose proof (rd_same a WA) as RA. assert (BR : bnd (rd_al a)) by apply bnd_items, bnd_init.
  assert (WR : forall m, same_dims m (e_al a) -> bnd m -> wf_entry (mkent (e_ns a) (e_t a) m (e_reps a))).
  { intros m [D1 D2] BM. destruct WA as (NE & PN & NO & PT & DI & DJ & SM & B). unfold wf_entry. cbn [e_ns e_t e_al]. rewrite D1, D2. repeat split; auto. }
  unfold combine1. change (if tr then transposeAlig (rde b) else rde b) with (view tr (rde b)). rewrite VN, VT. cbn [rde e_t e_ns e_al e_reps].
  assert (OUT : (e_ns (view tr b) <> e_ns a \/ e_t (view tr b) <> e_t a) -> wf_entry (mkent (e_ns a) (e_t a) (rd_al a) (e_reps a)) /\ combined o tr a b (mkent (e_ns a) (e_t a) (rd_al a) (e_reps a))).
  { intros X. split. - apply WR; [|exact BR]. destruct RA as [[R1 R2] _]. split; congruence.
    - repeat split; try reflexivity. exists (view tr b). split; [exact SV|]. split; [intros [Y Z]; destruct X; contradiction|]. intros _. exact RA. }
  destruct (strs_dec (e_t a) (e_t (view tr b))) as [ET|NT]; [destruct (strs_dec (e_ns a) (e_ns (view tr b))) as [EN|NN]|].
  - destruct (apply_op_ok o (rd_al a) (e_al (view tr (rde b)))) as (r & E & D & SP1). rewrite E. exists (mkent (e_ns a) (e_t a) r (rd (e_reps a))). cbn [e_ns e_t e_al e_reps].
    split; [reflexivity|]. split; [reflexivity|]. destruct RA as [[R1 R2] RC]. split; [apply WR; [destruct D; split; congruence|eapply bnd_op; [exact BR|exact E]]|].
    repeat split; try reflexivity. exists (view tr b). split; [exact SV|]. split; [|intros X; exfalso; apply X; split; congruence]. intros _. cbn [e_al].
    destruct WA as (NE & PN & NO & PT & DI & DJ & _). assert (SD : same_dims (e_al a) (e_al (view tr b))). { rewrite <- ET in VJ. rewrite <- EN in VI. split; lia. }
    eapply op_spec_same; [split; [split; eassumption|exact RC]|exact VA|exact SD|]. apply SP1. destruct SD as [S1 S2]. destruct VA as [[V1 V2] _]. split; congruence.
  - exists (rde a). cbn [rde e_ns e_t e_al e_reps]. split; [reflexivity|]. split; [reflexivity|]. apply OUT. left. congruence.
  - exists (rde a). cbn [rde e_ns e_t e_al e_reps]. split; [reflexivity|]. split; [reflexivity|]. apply OUT. right. congruence.
Qed.
Lemma next_end : forall x b, nextGIZA x (mkstrm b []) = Some (false, mkent [] [] (e_al x) (e_reps x), mkstrm b []). Proof. reflexivity. Qed.
Lemma op_loop_ok : forall la lb fuel o tr x y bx by_, Forall wf_entry la -> Forall wf_entry lb -> length lb < fuel ->
  exists lc, op_loop fuel o tr x y (mkstrm bx (concat (map entry_lines la))) (mkstrm by_ (concat (map entry_lines lb))) = Some (file_of (concat (map entry_lines lc))) /\
    Forall wf_entry lc /\ zipped (combined o tr) la lb lc.
Proof.
  induction la as [|a la IH]; intros lb fuel o tr x y bx by_ FA FB H; (destruct fuel as [|f]; [lia|]).
  - exists []. split; [|split; constructor]. cbn [op_loop]. destruct lb as [|b lb]; cbn [map concat]; [reflexivity|]. inversion FB; subst. rewrite next_ok by assumption. rewrite next_end. reflexivity.
  - destruct lb as [|b lb]; [exists []; split; [reflexivity|split; constructor]|]. inversion FA as [|? ? WA FA']; subst. inversion FB as [|? ? WB FB']; subst. cbn [op_loop map concat]. rewrite !next_ok by assumption.
    destruct (combine1_ok o tr a b WA WB) as (c' & E & ER & WC & CC). rewrite E. set (c := mkent (e_ns c') (e_t c') (e_al c') (e_reps a)) in *.
    destruct (IH lb f o tr c' (if tr then transposeAlig (rde b) else rde b) (line_of (items_of (e_ns a) (e_al a))) (line_of (items_of (e_ns b) (e_al b))) FA' FB' ltac:(cbn [length] in H; lia)) as (lc & EL & FC & ZC).
    rewrite EL. assert (P : print_entry c' = Some (file_of (entry_lines c))).
    { transitivity (print_entry c); [|apply print_ok, wf_len, WC]. unfold print_entry, header_of, c. cbn [e_ns e_t e_al e_reps]. now rewrite ER, rd_text. }
    rewrite P. exists (c :: lc). split; [cbn [map concat]; now rewrite file_of_app|]. split; [now constructor|now constructor].
Qed.
Theorem op_files : forall o tr la lb, Forall wf_entry la -> Forall wf_entry lb -> exists fa fb fc lc,
  giza_file la = Some fa /\ giza_file lb = Some fb /\ giza_file lc = Some fc /\ align_op o tr fa fb = Some fc /\ Forall wf_entry lc /\ zipped (combined o tr) la lb lc.
Proof.
  intros o tr la lb FA FB. destruct (op_loop_ok la lb (S (length (concat (map entry_lines lb)))) o tr no_entry no_entry [] [] FA FB) as (lc & E & FC & Z); [rewrite lines_length; lia|].
  exists (file_of (concat (map entry_lines la))), (file_of (concat (map entry_lines lb))), (file_of (concat (map entry_lines lc))), lc.
  split; [now apply giza_file_ok, wf_lens|]. split; [now apply giza_file_ok, wf_lens|]. split; [now apply giza_file_ok, wf_lens|]. split; [|now split].
  unfold align_op. rewrite !open_file by assumption. exact E.
Qed.
