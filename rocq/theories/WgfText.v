(** Reading the lines of a word-graph file. *)
From Coq Require Import Ascii String Arith ZArith NArith QArith Qpower Qabs List Bool Lia.
From Verif Require Import TextSpec TextModel TextProofs VocabSpec VocabModel VocabProofs WgModel PmModel PmText GfmtModel GfmtProofs GfmtText WgfSpec WgfModel.
Import ListNotations.
(** ** numbers *)
Definition rd (x : Q) : Q := match atofq (fmt_g x) with Some y => y | None => 0 end.
Lemma rd_ok : forall x, atofq (fmt_g x) = Some (rd x) /\ (rd x == shown x)%Q.
Proof. intros x. destruct (fmt_parse x) as (y & E & V). unfold rd. rewrite E. auto. Qed.
Lemma rd_printed : forall x, as_printed x (rd x).
Proof.
  intros x. destruct (rd_ok x) as [_ V]. split; [rewrite V; apply shown_near|]. intros H. rewrite V. apply shown_exact, H.
Qed.
Lemma rd_text : forall x, fmt_g (rd x) = fmt_g x.
Proof. intros x. apply fmt_stable, rd_ok. Qed.
Definition nchar (c : ascii) : Prop := dchar c \/ In c ["-"; "+"; "."; "e"]%char.
Lemma nchar_clean : forall c, nchar c -> c <> SP /\ c <> NL /\ c <> NUL /\ c <> "|"%char /\ c <> "#"%char.
Proof.
  intros c [(d & Hd & ->)|H].
  - do 10 (destruct d as [|d]; [repeat split; discriminate|]). lia.
  - cbn in H. repeat (destruct H as [<-|H]; [repeat split; discriminate|]). destruct H.
Qed.
Lemma dchars_n : forall l, Forall dchar l -> Forall nchar l.
Proof. intros l F. eapply Forall_impl; [|exact F]. intros c H. now left. Qed.
Lemma frac_n : forall l, Forall dchar l -> Forall nchar (frac l).
Proof. intros [|c l] F; [constructor|]. cbn [frac]. constructor; [right; cbn; auto|apply dchars_n, F]. Qed.
Lemma fmt_chars : forall x, Forall nchar (fmt_g x).
Proof.
  intros x. unfold fmt_g. destruct (Z.eqb (Qnum x) 0); [constructor; [left; exists 0%nat; split; [lia|reflexivity]|constructor]|]. apply Forall_app. split; [destruct (Z.ltb (Qnum x) 0); repeat constructor; right; cbn; auto|].
  destruct (round6 (Qabs x)) as [m X]. unfold render. pose proof (sixdigits_dchar m) as F. set (D := sixdigits m) in *.
  assert (F1 : forall n, Forall dchar (firstn n D)) by (intros n; rewrite <- (firstn_skipn n D) in F; apply Forall_app in F; apply F). assert (F2 : forall n, Forall dchar (skipn n D)) by (intros n; rewrite <- (firstn_skipn n D) in F; apply Forall_app in F; apply F).
  destruct ((-4 <=? X) && (X <? 6))%Z; [destruct (0 <=? X)%Z|].
  - apply Forall_app. split; [apply dchars_n, F1|apply frac_n, strip0_dchar, F2].
  - apply Forall_app. split; [constructor; [left; exists 0%nat; split; [lia|reflexivity]|constructor; [right; cbn; auto|constructor]]|]. apply Forall_app. split; [apply dchars_n, zeros_dchar|apply dchars_n, strip0_dchar, F].
  - apply Forall_app. split; [apply dchars_n, F1|]. apply Forall_app. split; [apply frac_n, strip0_dchar, F2|]. constructor; [right; cbn; auto|]. constructor; [right; destruct (X <? 0)%Z; cbn; auto|]. apply dchars_n, ds_val.
Qed.
Definition clean (w : str) : Prop := w <> [] /\ ~ In SP w /\ ~ In NL w /\ ~ In NUL w.
Lemma clean_chars : forall w, w <> [] -> Forall nchar w -> clean w.
Proof. intros w N F. rewrite Forall_forall in F. repeat split; auto; intros H; destruct (nchar_clean _ (F _ H)) as (A & B & C & _); congruence. Qed.
Lemma fmt_clean : forall x, clean (fmt_g x).
Proof. intros x. apply clean_chars; [|apply fmt_chars]. intros E. destruct (rd_ok x) as [H _]. rewrite E in H. discriminate. Qed.
Lemma dec_clean : forall n, clean (dec n).
Proof. intros n. apply clean_chars; [apply dec_ne|apply dchars_n, dec_shape]. Qed.
Lemma nchars_nobar : forall w, Forall nchar w -> w <> T "|||" /\ w <> T "#".
Proof. intros w F. split; intros ->; inversion F as [|? ? H _]; destruct (nchar_clean _ H) as (_ & _ & _ & A & B); congruence. Qed.
Lemma plain_clean : forall w, plain w -> clean w. Proof. intros w H. exact H. Qed.
(** ** fields *)
Lemma flds_clean : forall w r, clean w -> (match r with [] => True | c :: _ => c = SP end) -> flds (w ++ r) = w :: flds r.
Proof. intros w r (A & B & _) H. apply flds_token; auto. Qed.
Lemma flds_clean_sp : forall w r, clean w -> flds (w ++ SP :: r) = w :: flds r.
Proof. intros w r H. rewrite flds_clean by (auto; reflexivity). now rewrite flds_sp. Qed.
Lemma flds_one : forall w, clean w -> flds w = [w].
Proof. intros w H. rewrite <- (app_nil_r w) at 1. rewrite flds_clean by (auto; exact Logic.I). reflexivity. Qed.
Lemma flds_map : forall A (f : A -> str) l r, (forall x, clean (f x)) -> flds (concat (map (fun x => f x ++ [SP]) l) ++ r) = map f l ++ flds r.
Proof. intros A f l r H. induction l as [|x l IH]; [reflexivity|]. cbn [map concat]. rewrite <- !app_assoc. cbn [app]. rewrite flds_clean_sp by auto. now rewrite IH. Qed.
Lemma flds_words : forall ws, Forall plain ws -> flds (words_text ws) = ws.
Proof.
  induction ws as [|w ws IH]; intros F; [reflexivity|]. inversion F as [|? ? P F']; subst. cbn [words_text]. destruct ws as [|w' ws]; [apply flds_one; exact P|]. rewrite flds_clean_sp by exact P. now rewrite IH.
Qed.
Lemma bar_clean : clean (T "|||"). Proof. repeat split; [discriminate|..]; cbn; intuition discriminate. Qed.
Definition comp_fields (cs : list Q) : list str := match cs with [] => [] | _ => T "|||" :: map fmt_g cs ++ [T "|||"] end.
Lemma arc_fields : forall a, Forall plain (f_words a) -> flds (arc_text a) = dec (f_pred a) :: dec (f_succ a) :: fmt_g (f_score a) :: comp_fields (f_comps a) ++ f_words a.
Proof.
  intros a P. unfold arc_text. change (T " ") with [SP]. change (T "||| ") with (T "|||" ++ [SP]). unfold comp_fields. pose proof bar_clean as BC. remember (T "|||") as B eqn:HB. clear HB. cbn [app]. rewrite flds_clean_sp by apply dec_clean. rewrite flds_clean_sp by apply dec_clean. rewrite flds_clean_sp by apply fmt_clean. f_equal. f_equal. f_equal.
  destruct (f_comps a) as [|c cs] eqn:E; [apply flds_words, P|]. rewrite <- E. rewrite <- !app_assoc. cbn [app]. rewrite flds_clean_sp by exact BC. cbn [app]. f_equal. rewrite flds_map by apply fmt_clean. rewrite <- app_assoc. f_equal. cbn [app]. rewrite flds_clean_sp by exact BC. now rewrite flds_words.
Qed.
Fixpoint wfields (ws : list (str * Q)) : list str :=
  match ws with [] => [] | [w] => [fst w; fmt_g (snd w)] | w :: r => fst w :: fmt_g (snd w) :: T "," :: wfields r end.
Lemma weight_fields : forall ws, Forall (fun w => plain (fst w)) ws -> flds (weights_text ws) = wfields ws.
Proof.
  induction ws as [|w ws IH]; intros F; [reflexivity|]. inversion F as [|? ? P F']; subst. cbn [weights_text wfields]. change (T " ") with [SP]. change (T " , ") with (SP :: T "," ++ [SP]). destruct ws as [|w' ws].
  - cbn [app]. rewrite flds_clean_sp by exact P. now rewrite flds_one by apply fmt_clean.
  - cbn [app]. rewrite flds_clean_sp by exact P. rewrite flds_clean_sp by apply fmt_clean. f_equal. f_equal. rewrite <- IH by exact F'. apply (flds_clean_sp (T ",") (weights_text (w' :: ws))). repeat split; [discriminate|..]; cbn; intuition discriminate.
Qed.
(** ** loops *)
Lemma dol : forall buf k, dollar SP buf (Datatypes.S k) = Some (nth k (flds buf) []).
Proof. intros. apply dollar_words. Qed.
Lemma nfw : forall buf, get_NF SP buf = Some (length (flds buf)).
Proof. intros. apply get_NF_words. Qed.
Lemma nth_mid : forall (pre : list str) w post, nth (length pre) (pre ++ w :: post) [] = w.
Proof. intros. rewrite app_nth2, Nat.sub_diag by lia. reflexivity. Qed.
Lemma read_words_ok : forall ws fuel buf pre, flds buf = pre ++ ws -> (length ws < fuel)%nat -> read_words fuel buf (length (flds buf)) (Datatypes.S (length pre)) = Some ws.
Proof.
  induction ws as [|w ws IH]; intros fuel buf pre E Hf; (destruct fuel as [|fuel]; [lia|]); cbn [read_words];
    pose proof (f_equal (@length str) E) as NF; rewrite app_length in NF; cbn [length] in NF.
  - destruct (Nat.ltb_spec (length (flds buf)) (Datatypes.S (length pre))); [reflexivity|lia].
  - destruct (Nat.ltb_spec (length (flds buf)) (Datatypes.S (length pre))); [lia|]. rewrite dol. assert (N1 : nth (length pre) (flds buf) [] = w) by (rewrite E; apply nth_mid). rewrite N1.
    specialize (IH fuel buf (pre ++ [w])). rewrite app_length in IH. cbn [length] in IH. rewrite Nat.add_1_r in IH. rewrite Nat.add_1_r. rewrite IH; [reflexivity|rewrite <- app_assoc; exact E|cbn [length] in Hf; lia].
Qed.
Lemma read_comps_ok : forall cs fuel buf pre post, flds buf = pre ++ map fmt_g cs ++ T "|||" :: post -> (length cs < fuel)%nat ->
  read_comps fuel buf (length (flds buf)) (Datatypes.S (length pre)) = Some (map rd cs, Datatypes.S (length pre + length cs)).
Proof.
  induction cs as [|c cs IH]; intros fuel buf pre post E Hf; (destruct fuel as [|fuel]; [lia|]); cbn [read_comps map]; rewrite dol.
  - assert (N1 : nth (length pre) (flds buf) [] = T "|||") by (rewrite E; apply nth_mid). rewrite N1. destruct (str_dec (T "|||") (T "|||")); [|contradiction]. cbn [length]. now rewrite Nat.add_0_r.
  - assert (N1 : nth (length pre) (flds buf) [] = fmt_g c) by (rewrite E; apply nth_mid). rewrite N1.
    destruct (nchars_nobar _ (fmt_chars c)) as [NB _]. destruct (str_dec (fmt_g c) (T "|||")); [contradiction|]. assert (NF : (length pre < length (flds buf))%nat) by (rewrite E, app_length; cbn [map app length]; lia).
    destruct (Nat.ltb_spec (length (flds buf)) (Datatypes.S (length pre))) as [L|L]; [lia|]. destruct (rd_ok c) as [-> _].
    specialize (IH fuel buf (pre ++ [fmt_g c]) post). rewrite app_length in IH. cbn [length] in IH. rewrite Nat.add_1_r in IH. rewrite Nat.add_1_r. rewrite IH; [|rewrite <- app_assoc; exact E|cbn [length] in Hf; lia].
    f_equal. f_equal. cbn [length]. lia.
Qed.
Lemma read_finals_ok : forall ss fuel buf pre acc, flds buf = pre ++ map dec ss -> Forall small ss -> (length ss < fuel)%nat ->
  read_finals fuel buf (length (flds buf)) (Datatypes.S (length pre)) acc = Some (fold_left (fun a s => set_insert s a) ss acc).
Proof.
  induction ss as [|s ss IH]; intros fuel buf pre acc E F Hf; (destruct fuel as [|fuel]; [lia|]); cbn [read_finals];
    pose proof (f_equal (@length str) E) as NF; rewrite app_length in NF; cbn [length map] in NF.
  - destruct (Nat.ltb_spec (length (flds buf)) (Datatypes.S (length pre))); [reflexivity|lia].
  - inversion F as [|? ? S1 F']; subst. destruct (Nat.ltb_spec (length (flds buf)) (Datatypes.S (length pre))); [lia|]. rewrite dol. assert (N1 : nth (length pre) (flds buf) [] = dec s) by (rewrite E; apply nth_mid). rewrite N1. rewrite atoi_dec by exact S1.
    specialize (IH fuel buf (pre ++ [dec s]) (set_insert s acc)). rewrite app_length in IH. cbn [length] in IH. rewrite Nat.add_1_r in IH. rewrite Nat.add_1_r. rewrite IH; [reflexivity|rewrite <- app_assoc; exact E|exact F'|cbn [length] in Hf; lia].
Qed.
Definition rdw (w : str * Q) : str * Q := (fst w, rd (snd w)).
Lemma read_weights_ok : forall ws fuel buf pre, flds buf = pre ++ wfields ws -> (length ws < fuel)%nat ->
  read_weights fuel buf (length (flds buf)) (Datatypes.S (length pre)) = Some (map rdw ws).
Proof.
  induction ws as [|w ws IH]; intros fuel buf pre E Hf; (destruct fuel as [|fuel]; [lia|]); cbn [read_weights map].
  - rewrite E, app_length. cbn [length wfields]. destruct (Nat.ltb_spec (length pre + 0) (Datatypes.S (length pre))); [reflexivity|lia].
  - assert (Hd : exists post, wfields (w :: ws) = fst w :: fmt_g (snd w) :: post /\ (ws = [] -> post = []) /\ (ws <> [] -> post = T "," :: wfields ws)).
    { cbn [wfields]. destruct ws; eexists; (split; [reflexivity|]); split; intros; auto; try contradiction; try discriminate. }
    destruct Hd as (post & Ew & P1 & P2). rewrite Ew in E.
    assert (NL' : (length (flds buf) <? Datatypes.S (length pre))%nat = false) by (apply Nat.ltb_ge; rewrite E, app_length; cbn [length]; lia). rewrite NL'. rewrite Nat.add_1_r, !dol.
    assert (N1 : nth (length pre) (flds buf) [] = fst w) by (rewrite E; apply nth_mid). assert (N2 : nth (Datatypes.S (length pre)) (flds buf) [] = fmt_g (snd w)) by (rewrite E, app_nth2 by lia; replace (Datatypes.S (length pre) - length pre)%nat with 1%nat by lia; reflexivity).
    rewrite N1, N2. destruct (rd_ok (snd w)) as [-> _]. replace (Datatypes.S (length pre) + 3)%nat with (Datatypes.S (length (pre ++ [fst w; fmt_g (snd w); T ","]))) by (rewrite app_length; cbn [length]; lia).
    destruct ws as [|w' ws].
    + rewrite (P1 eq_refl) in E. cbn [map]. assert (Z : read_weights fuel buf (length (flds buf)) (Datatypes.S (length (pre ++ [fst w; fmt_g (snd w); T ","]))) = Some []).
      { destruct fuel as [|fuel]; [cbn [length] in Hf; lia|]. cbn [read_weights]. rewrite E, !app_length. cbn [length]. destruct (Nat.ltb_spec (length pre + 2) (Datatypes.S (length pre + 3))); [reflexivity|lia]. }
      rewrite Z. reflexivity.
    + rewrite (IH fuel buf (pre ++ [fst w; fmt_g (snd w); T ","])); [reflexivity| |cbn [length] in *; lia]. rewrite E, (P2 ltac:(discriminate)), <- app_assoc. reflexivity.
Qed.
(** ** one arc *)
Definition rda (a : farc) : farc := mkfarc (f_pred a) (f_succ a) (rd (f_score a)) (f_words a) (map rd (f_comps a)).
Definition addA (a : farc) (g : fwg) : option fwg := w_addArc (f_pred a) (f_succ a) (f_words a) (f_score a) (f_comps a) g.
Lemma load_arc_ok : forall a g, plain_arc a -> load_arc (arc_text a) g = addA (rda a) g.
Proof.
  intros a g (S1 & S2 & P & NB). pose proof (arc_fields a P) as E. set (buf := arc_text a) in *. unfold load_arc. rewrite nfw, !dol. assert (L3 : (3 <=? length (flds buf))%nat = true) by (apply Nat.leb_le; rewrite E; cbn [length]; lia). rewrite L3.
  assert (N1 : nth 0 (flds buf) [] = dec (f_pred a)) by now rewrite E. assert (N2 : nth 1 (flds buf) [] = dec (f_succ a)) by now rewrite E. assert (N3 : nth 2 (flds buf) [] = fmt_g (f_score a)) by now rewrite E.
  rewrite N1, N2, N3. rewrite !atoi_dec by assumption. destruct (rd_ok (f_score a)) as [-> _]. unfold addA, rda. cbn [f_pred f_succ f_words f_score f_comps]. unfold comp_fields in E. destruct (f_comps a) as [|c cs] eqn:EC.
  - cbn [app] in E. assert (N4 : nth 3 (flds buf) [] = nth 0 (f_words a) []) by (rewrite E; reflexivity). rewrite N4. destruct (str_dec (nth 0 (f_words a) []) (T "|||")) as [Q|Q].
    { exfalso. specialize (NB eq_refl). destruct (f_words a); cbn in Q, NB; [discriminate|congruence]. }
    pose proof (read_words_ok (f_words a) (Datatypes.S (Datatypes.S (length (flds buf)))) buf [dec (f_pred a); dec (f_succ a); fmt_g (f_score a)] E) as RW. cbn [length] in RW. rewrite RW by (rewrite E; cbn [length]; lia). reflexivity.
  - rewrite <- EC in *. assert (N4 : nth 3 (flds buf) [] = T "|||") by (rewrite E; reflexivity). rewrite N4. destruct (str_dec (T "|||") (T "|||")); [|contradiction].
    assert (E5 : flds buf = [dec (f_pred a); dec (f_succ a); fmt_g (f_score a); T "|||"] ++ map fmt_g (f_comps a) ++ T "|||" :: f_words a) by (rewrite E; cbn [app]; now rewrite <- app_assoc).
    assert (LF : length (flds buf) = (4 + length (f_comps a) + 1 + length (f_words a))%nat) by (rewrite E5, !app_length, map_length; cbn [length]; lia).
    pose proof (read_comps_ok (f_comps a) (Datatypes.S (Datatypes.S (length (flds buf)))) buf _ _ E5 ltac:(lia)) as RC. cbn [length] in RC. rewrite RC.
    assert (E6 : flds buf = ([dec (f_pred a); dec (f_succ a); fmt_g (f_score a); T "|||"] ++ map fmt_g (f_comps a) ++ [T "|||"]) ++ f_words a) by (rewrite E5, <- !app_assoc; reflexivity).
    pose proof (read_words_ok (f_words a) (Datatypes.S (Datatypes.S (length (flds buf)))) buf _ E6 ltac:(lia)) as RW. rewrite !app_length, map_length in RW. cbn [length] in RW.
    replace (Datatypes.S (4 + length (f_comps a)) + 1)%nat with (Datatypes.S (4 + (length (f_comps a) + 1)))%nat by lia. rewrite RW. reflexivity.
Qed.
Fixpoint add_list (L : list farc) (g : fwg) : option fwg := match L with [] => Some g | a :: r => match addA a g with None => None | Some g' => add_list r g' end end.
Lemma load_arcs_ok : forall L g, Forall plain_arc L -> load_arcs (map arc_text L) g = add_list (map rda L) g.
Proof. induction L as [|a L IH]; intros g F; [reflexivity|]. inversion F; subst. cbn [map load_arcs add_list]. rewrite load_arc_ok by assumption. destruct (addA (rda a) g); [now apply IH|reflexivity]. Qed.
(** ** the file *)
Lemma good_clean : forall w, clean w -> good_line w. Proof. intros w (_ & _ & A & B). split; assumption. Qed.
Lemma good_app : forall a b, good_line a -> good_line b -> good_line (a ++ b).
Proof. intros a b [A1 A2] [B1 B2]. split; rewrite in_app_iff; tauto. Qed.
Lemma good_sp : good_line [SP]. Proof. split; cbn; intuition discriminate. Qed.
Lemma good_map : forall A (f : A -> str) l, (forall x, clean (f x)) -> good_line (concat (map (fun x => f x ++ [SP]) l)).
Proof. intros A f l H. induction l as [|x l IH]; [split; cbn; tauto|]. cbn [map concat]. repeat apply good_app; auto using good_sp, good_clean. Qed.
Lemma good_words : forall ws, Forall plain ws -> good_line (words_text ws).
Proof. induction ws as [|w ws IH]; intros F; [split; cbn; tauto|]. inversion F; subst. cbn [words_text]. destruct ws as [|l ws]; [now apply good_clean|]. apply good_app; [now apply good_clean|]. change (SP :: words_text (l :: ws)) with ([SP] ++ words_text (l :: ws)). apply good_app; [apply good_sp|auto]. Qed.
Lemma good_arc : forall a, plain_arc a -> good_line (arc_text a).
Proof.
  intros a (_ & _ & P & _). unfold arc_text. change (T " ") with [SP]. change (T "||| ") with (T "|||" ++ [SP]). repeat apply good_app; auto using good_sp, good_words; try (apply good_clean; first [apply dec_clean|apply fmt_clean]).
  destruct (f_comps a) as [|c cs]; [split; cbn; tauto|]. assert (GB : good_line (T "|||" ++ [SP])) by (apply good_app; [apply good_clean, bar_clean|apply good_sp]). apply good_app; [exact GB|]. apply good_app; [apply (good_map _ fmt_g (c :: cs)), fmt_clean|exact GB].
Qed.
Lemma good_weights : forall ws, Forall (fun w => plain (fst w)) ws -> good_line (weights_text ws).
Proof.
  induction ws as [|w ws IH]; intros F; [split; cbn; tauto|]. inversion F as [|? ? P F']; subst. cbn [weights_text]. change (T " ") with [SP].
  destruct ws; [repeat apply good_app; auto using good_sp; apply good_clean; [exact P|apply fmt_clean]|]. repeat apply good_app; auto using good_sp; try (apply good_clean; first [exact P|apply fmt_clean]). split; cbn; intuition discriminate.
Qed.
Definition file_text (ws : list (str * Q)) (fs : list nat) (L : list farc) : str :=
  concat (map (fun l => l ++ [NL]) ((match ws with [] => [] | ws => [T "# " ++ weights_text ws] end) ++ finals_text fs :: map arc_text L)).
Theorem load_text : forall ws fs L, Forall (fun w => plain (fst w)) ws -> Forall small fs -> Forall plain_arc L ->
  w_load (file_text ws fs L) = add_list (map rda L) (mkfwg [] [] [] (fold_left (fun a s => set_insert s a) fs []) 0 (map rdw ws)).
Proof.
  intros ws fs L FW FF FL. unfold w_load, file_text.
  assert (GA : Forall good_line (map arc_text L)) by (apply Forall_map; eapply Forall_impl; [|exact FL]; apply good_arc).
  assert (GF : good_line (finals_text fs)) by (apply good_map, dec_clean).
  assert (EF : flds (finals_text fs) = [] ++ map dec fs). { unfold finals_text. pose proof (flds_map _ dec fs [] dec_clean) as X. rewrite app_nil_r in X. rewrite X. cbn. now rewrite app_nil_r. }
  assert (REST : forall ws', load_rest ws' (finals_text fs :: map arc_text L) = add_list (map rda L) (mkfwg [] [] [] (fold_left (fun a s => set_insert s a) fs []) 0 ws')).
  { intros ws'. cbn [load_rest]. rewrite nfw. assert (LN : length (flds (finals_text fs)) = length fs) by (rewrite EF; apply map_length). pose proof (read_finals_ok fs (Datatypes.S (length (flds (finals_text fs)))) _ [] [] EF FF ltac:(lia)) as RF. cbn [length] in RF. rewrite RF. now apply load_arcs_ok. }
  match goal with |- context[concat (map _ ?ll)] => set (lns := ll) end. fold (file_of lns). assert (GL : Forall good_line lns).
  { unfold lns. apply Forall_app. split; [|constructor; auto]. destruct ws; [constructor|]. constructor; [|constructor]. apply good_app; [split; cbn; intuition discriminate|now apply good_weights]. }
  rewrite read_lines_ok by exact GL. unfold lns. destruct ws as [|w ws]; cbn [app].
  - rewrite nfw, dol. destruct (str_dec (nth 0 (flds (finals_text fs)) []) (T "#")) as [Q|Q]; [|apply REST]. exfalso. rewrite EF in Q. destruct fs as [|s fs]; cbn [map app nth] in Q; [discriminate|].
    destruct (nchars_nobar _ (dchars_n _ (dec_shape s))) as [_ X]. contradiction.
  - assert (EW : flds (T "# " ++ weights_text (w :: ws)) = [T "#"] ++ wfields (w :: ws)). { change (T "# ") with (T "#" ++ [SP]). rewrite <- app_assoc. cbn [app]. change ("#"%char :: SP :: weights_text (w :: ws)) with (T "#" ++ SP :: weights_text (w :: ws)). rewrite flds_clean_sp by (repeat split; [discriminate|..]; cbn; intuition discriminate). rewrite weight_fields by exact FW. reflexivity. }
    rewrite nfw, dol. assert (N1 : nth 0 (flds (T "# " ++ weights_text (w :: ws))) [] = T "#") by (rewrite EW; reflexivity). rewrite N1. destruct (str_dec (T "#") (T "#")); [|contradiction].
    assert (LW : forall l : list (str * Q), (length l <= length (wfields l))%nat). { induction l as [|x l IH]; [cbn; lia|]. cbn [wfields length]. destruct l; cbn [length] in *; lia. }
    pose proof (read_weights_ok (w :: ws) (Datatypes.S (length (flds (T "# " ++ weights_text (w :: ws))))) _ [T "#"] EW) as RW. cbn [length] in RW. cbn [length]. rewrite RW; [apply REST|]. rewrite EW, app_length. pose proof (LW (w :: ws)). cbn [length] in *. lia.
Qed.
