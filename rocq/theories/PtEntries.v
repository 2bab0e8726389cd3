From Coq Require Import ZArith NArith QArith List Bool Lia Sorting.Sorted.
From Verif Require Import AMap CodecModel CodecSpec CodecProofs LevelDbModel LevelDbProofs PtSpec PtModel PtProofs.
Import ListNotations.
Open Scope Z_scope.

Lemma nonempty_flag : forall A (l : list A), negb (match l with [] => true | _ => false end) = true <-> l <> [].
Proof. destruct l; simpl; split; congruence. Qed.

Lemma flat_nodup : forall A B (g : A -> phrase) (f : A -> list (phrase * B)) (l : list A),
  (forall e x, In x (f e) -> fst x = g e) -> (forall e, length (f e) <= 1)%nat -> NoDup (map g l) -> NoDup (map fst (flat_map f l)).
Proof.
  intros A B g f l H1 H2. induction l as [|e l IH]; simpl; intro ND; [constructor|]. inversion ND; subst.
  rewrite map_app. destruct (f e) as [|x [|y r]] eqn:E; simpl; auto.
  - constructor; auto. intro HI. apply in_map_iff in HI. destruct HI as (z & Ez & Hz). apply in_flat_map in Hz. destruct Hz as (e' & He' & Hz).
    apply H1 in Hz. assert (fst x = g e) by (apply H1; rewrite E; simpl; auto). apply H3. rewrite <- H, <- Ez, Hz. now apply in_map.
  - specialize (H2 e). rewrite E in H2. simpl in H2. lia.
Qed.
Lemma filter_map_nodup : forall A B (g : A -> B) q (l : list A), NoDup (map g l) -> NoDup (map g (filter q l)).
Proof.
  induction l as [|a l IH]; simpl; intro ND; auto. inversion ND; subst. destruct (q a); simpl; auto. constructor; auto.
  intro HI. apply H1. apply in_map_iff in HI. destruct HI as (x & E & Hx). apply filter_In in Hx. rewrite <- E. apply in_map. tauto.
Qed.

Lemma last_max : forall V (d : db V) x, db_ok d -> d <> [] -> forall k, In k (map fst d) -> k = fst (last d x) \/ lexlt k (fst (last d x)).
Proof.
  intros V d x. induction d as [|[k1 v1] d IH]; intros H NE k HI; [congruence|]. inversion H as [|? ? Hs Hf]; subst. destruct d as [|e d].
  - simpl in *. intuition.
  - change (last ((k1, v1) :: e :: d) x) with (last (e :: d) x). destruct HI as [<-|HI].
    + right. cbn [fst]. rewrite Forall_forall in Hf. apply Hf. apply (in_map fst).
      assert (H0 : e :: d <> []) by congruence. clear - H0. destruct (exists_last H0) as (l & a & E). rewrite E. rewrite last_last. apply in_or_app. simpl. auto.
    + apply IH; auto. congruence.
Qed.
Lemma first_min : forall V k1 (v1 : V) d, db_ok ((k1, v1) :: d) -> forall k, In k (map fst ((k1, v1) :: d)) -> k = k1 \/ lexlt k1 k.
Proof. intros V k1 v1 d H k HI. inversion H as [|? ? Hs Hf]; subst. destruct HI as [<-|HI]; auto. rewrite Forall_forall in Hf. right. now apply Hf. Qed.

Lemma key_range : forall s t' s1 s2 t, (s = s1 \/ lexlt s1 s) -> (s = s2 \/ lexlt s s2) ->
  (negb (key_ltb (s, t') (s1, t)) && negb (key_ltb (s2, t) (s, t')) = true <-> t' = t).
Proof.
  intros s t' s1 s2 t A B. unfold key_ltb. simpl. rewrite andb_true_iff, !negb_true_iff. split.
  - intros [H1 H2]. destruct (phrase_dec t' t) as [E|N]; auto. destruct (phrase_dec t t'); [congruence|].
    apply bytes_ltb_false in H1, H2. destruct (lexlt_total t' t) as [[L|L]|L]; tauto.
  - intros ->. destruct (phrase_dec t t); [|congruence]. split; apply bytes_ltb_false; intro L.
    + destruct A as [->|A]; [now apply lexlt_irrefl in L|]. apply (lexlt_irrefl s). eapply lexlt_trans; eauto.
    + destruct B as [->|B]; [now apply lexlt_irrefl in L|]. apply (lexlt_irrefl s). eapply lexlt_trans; eauto.
Qed.

Lemma db_get_keys : forall V k (d : db V), db_ok d -> db_get k d <> None -> In k (map fst d).
Proof. intros V k d H N. destruct (db_get k d) eqn:E; [|congruence]. apply db_get_In in E; auto. now apply (in_map fst) in E. Qed.

Lemma stl_entries_trg : forall p c t, R p c -> srcPhraseInfo p <> [] -> exists b res p',
  stl_getEntriesForTarget t p = Some (b, res, p') /\ R p' c /\ (forall x, In x res <-> entry_of c t x) /\ NoDup (map fst res) /\ (b = true <-> res <> []).
Proof.
  intros p c t H NE. unfold stl_getEntriesForTarget. destruct (srcPhraseInfo p) as [|[s1 n1] rest] eqn:ES; [congruence|].
  destruct (R_key p c s1 t H) as [H' _]. pose proof (key_src s1 t p) as KS. pose proof (key_st s1 t p) as KT.
  destruct (stl_getSrcTrgKey s1 t p) as [f p']. cbn [fst snd] in *.
  set (s2 := fst (last ((s1, n1) :: rest) (s1, 0))).
  set (flt := fun e : phrase * phrase * Z => negb (key_ltb (fst e) (s1, t)) && negb (key_ltb (s2, t) (fst e))).
  set (fm := fun e : phrase * phrase * Z => match db_get (fst (fst e)) (srcPhraseInfo p') with
                 | Some cs => if (cs =? 0) || (snd e =? 0) then [] else [(fst (fst e), (cs, snd e))] | None => [] end).
  do 3 eexists. split; [reflexivity|]. rewrite KT.
  assert (RG : forall e, In e (srcTrgPhraseInfo p) -> (flt e = true <-> snd (fst e) = t)).
  { intros [[s t'] n] HI. simpl. unfold flt. simpl. apply key_range.
    - assert (X : c_st c s t' <> None). { rewrite <- (R_st _ _ H). rewrite (aget_in pair_dec _ _ _ (R_stwf _ _ H) HI). congruence. }
      apply (R_refs _ _ H) in X. destruct X as [X _]. rewrite <- (R_src _ _ H), ES in X.
      apply (first_min _ s1 n1 rest); [rewrite <- ES; apply (R_sok _ _ H)|]. apply db_get_keys in X; auto. rewrite <- ES; apply (R_sok _ _ H).
    - assert (X : c_st c s t' <> None). { rewrite <- (R_st _ _ H). rewrite (aget_in pair_dec _ _ _ (R_stwf _ _ H) HI). congruence. }
      apply (R_refs _ _ H) in X. destruct X as [X _]. rewrite <- (R_src _ _ H), ES in X.
      apply last_max; [rewrite <- ES; apply (R_sok _ _ H)|congruence|]. apply db_get_keys in X; auto. rewrite <- ES; apply (R_sok _ _ H). }
  split; [exact H'|split; [|split]].
  - intros [s [cs n]]. unfold entry_of. simpl. rewrite in_flat_map. split.
    + intros (e & He & Hx). apply filter_In in He. destruct He as [He Fe]. apply RG in Fe; auto. unfold fm in Hx.
      destruct e as [[s' t'] n']. simpl in *. subst t'. rewrite KS, (R_src _ _ H) in Hx.
      destruct (c_src c s') as [cs'|] eqn:CS; [|destruct Hx]. destruct (Z.eqb_spec cs' 0); [destruct Hx|]. destruct (Z.eqb_spec n' 0); [destruct Hx|].
      simpl in Hx. destruct Hx as [Hx|[]]. inversion Hx; subst. split; auto. split; auto.
      rewrite <- (R_st _ _ H). now apply aget_in; [apply (R_stwf _ _ H)|].
    + intros (A & B & C & D). rewrite <- (R_st _ _ H) in B. apply aget_some_in in B. exists ((s, t), n). split.
      * apply filter_In. split; auto. apply RG; auto.
      * unfold fm. simpl. rewrite KS, (R_src _ _ H), A. destruct (Z.eqb_spec cs 0); [congruence|]. destruct (Z.eqb_spec n 0); [congruence|]. simpl. auto.
  - apply (flat_nodup _ _ (fun e => fst (fst e))).
    + intros e x. unfold fm. destruct (db_get _ _); simpl; [|tauto]. destruct (_ || _); simpl; [tauto|]. intros [<-|[]]. reflexivity.
    + intro e. unfold fm. destruct (db_get _ _); simpl; [|lia]. destruct (_ || _); simpl; lia.
    + assert (W : awf (filter flt (srcTrgPhraseInfo p))) by (apply filter_map_nodup; apply (R_stwf _ _ H)).
      assert (T : forall e, In e (filter flt (srcTrgPhraseInfo p)) -> snd (fst e) = t) by (intros e He; apply filter_In in He; apply RG; tauto).
      clear - W T. induction (filter flt (srcTrgPhraseInfo p)) as [|e l IH]; simpl; [constructor|]. inversion W; subst. constructor.
      * intro HI. apply H1. apply in_map_iff in HI. destruct HI as (e' & E & He'). replace (fst e) with (fst e'); [now apply in_map|].
        rewrite (surjective_pairing (fst e)), (surjective_pairing (fst e')), E, (T e), (T e'); simpl; auto.
      * apply IH; auto. intros; apply T; simpl; auto.
  - apply nonempty_flag.
Qed.

Lemma stl_entries_src : forall p c s, R p c -> let r := stl_getEntriesForSource s p in
  (forall x, In x (snd r) <-> entry_of_src c s x) /\ NoDup (map fst (snd r)) /\ (fst r = true <-> snd r <> []).
Proof.
  intros p c s H r. unfold r, stl_getEntriesForSource. cbn [fst snd]. split; [|split; [|apply nonempty_flag]].
  - intros [t [ct n]]. unfold entry_of_src. simpl. rewrite in_flat_map. split.
    + intros ([[s' t'] n'] & He & Hx). simpl in Hx. destruct (phrase_dec s' s); [subst s'|destruct Hx].
      pose proof (R_trg _ _ H t') as T. destruct (db_get t' (trgPhraseInfo p)) as [ct'|]; [|destruct Hx]. simpl in T. subst ct'.
      destruct (Z.eqb_spec (c_trg c t') 0); [destruct Hx|]. destruct (Z.eqb_spec n' 0); [destruct Hx|].
      simpl in Hx. destruct Hx as [Hx|[]]. inversion Hx; subst. split; auto. split; auto.
      rewrite <- (R_st _ _ H). now apply aget_in; [apply (R_stwf _ _ H)|].
    + intros (A & B & C & D). pose proof (R_refs _ _ H s t) as RF. rewrite B in RF. destruct RF as [_ RF]; [congruence|].
      rewrite <- (R_st _ _ H) in B. apply aget_some_in in B. exists ((s, t), n). split; auto. simpl.
      destruct (phrase_dec s s); [|congruence]. pose proof (R_trg _ _ H t) as T. destruct (db_get t (trgPhraseInfo p)) as [ct'|]; [|congruence].
      simpl in T. rewrite T, A. destruct (Z.eqb_spec ct 0); [congruence|]. destruct (Z.eqb_spec n 0); [congruence|]. simpl. auto.
  - pose proof (R_stwf _ _ H) as W. unfold awf in W. induction (srcTrgPhraseInfo p) as [|[[s' t'] n] l IH]; [constructor|].
    inversion W; subst. cbn [flat_map]. rewrite map_app. simpl. destruct (phrase_dec s' s); [subst s'|simpl; auto].
    destruct (db_get t' (trgPhraseInfo p)) as [ct|]; [|simpl; auto]. destruct (_ || _); simpl; auto. constructor; auto.
    intro HI. apply in_map_iff in HI. destruct HI as (x & E & Hx). apply in_flat_map in Hx. destruct Hx as ([[s2 t2] n2] & He & Hx).
    simpl in Hx. destruct (phrase_dec s2 s); [subst s2|destruct Hx]. destruct (db_get t2 _); [|destruct Hx]. destruct (_ || _); [destruct Hx|].
    simpl in Hx. destruct Hx as [Hx|[]]. subst x. simpl in E. subst t2. apply H2. apply in_map_iff. exists ((s, t'), n2). auto.
Qed.

(** ** byte-key backends *)
(** every key is the encoding of a source, target or pair record *)
Definition rec_vec (v : list N) : Prop :=
  (exists s, good_src s /\ v = getSrc s) \/ (good_trg v) \/ (exists s t, good_src s /\ good_trg t /\ v = getTrgSrc s t).
Definition keys_ok (ks : list (list N)) : Prop := forall k, In k ks -> exists v, k = pt_vectorToKey v /\ rec_vec v.
Lemma rec_below : forall v, rec_vec v -> words_below (254^3) v.
Proof.
  intros v [(s & G & ->)|[G|(s & t & G & G2 & ->)]].
  - apply below_src. now apply good_below.
  - apply good_below. apply G.
  - apply below_trgsrc; apply good_below; auto. apply G2.
Qed.
Lemma rec_s : forall s, good_src s -> rec_vec (getSrc s). Proof. intros. left. eauto. Qed.
Lemma rec_t : forall t, good_trg t -> rec_vec t. Proof. intros. right; left; auto. Qed.
Lemma rec_st : forall s t, good_src s -> good_trg t -> rec_vec (getTrgSrc s t). Proof. intros. right; right. eauto. Qed.

Lemma hat_keys_put : forall v c (m : hat), rec_vec v -> keys_ok (map fst m) -> keys_ok (map fst (aset bytes_dec (pt_vectorToKey v) c m)).
Proof. intros v c m RV H k HI. apply aset_keys in HI. destruct HI as [->|HI]; eauto. Qed.
Lemma hat_keys_run : forall h, Forall good_op h -> keys_ok (map fst (hat_run h)).
Proof.
  assert (X : forall h m, keys_ok (map fst m) -> Forall good_op h -> keys_ok (map fst (fold_left hat_step h m))).
  { induction h as [|o h IH]; intros m H G; simpl; auto. inversion G as [|? ? Go G']; subst. apply IH; auto.
    destruct o; simpl in Go; cbn [hat_step]; auto.
    - destruct Go. unfold hat_addTableEntry, hat_addSrcTrgInfo, hat_addTrgInfo, hat_addSrcInfo.
      apply hat_keys_put; [now apply rec_st|]. apply hat_keys_put; [now apply rec_t|]. apply hat_keys_put; [now apply rec_s|auto].
    - destruct Go. unfold hat_incrCountsOfEntry, hat_addSrcTrgInfo, hat_addTrgInfo, hat_addSrcInfo.
      apply hat_keys_put; [now apply rec_st|]. apply hat_keys_put; [now apply rec_t|]. apply hat_keys_put; [now apply rec_s|auto].
    - apply hat_keys_put; [now apply rec_s|auto].
    - destruct Go. apply hat_keys_put; [now apply rec_st|auto].
    - intros k []. }
  intros. apply X; auto. intros k [].
Qed.
Lemma ldb_keys_put : forall v c (m : ldb), rec_vec v -> keys_ok (map fst m) -> keys_ok (map fst (db_put (pt_vectorToKey v) c m)).
Proof. intros v c m RV H k HI. apply db_put_keys in HI. destruct HI as [->|HI]; eauto. Qed.
Lemma ldb_keys_run : forall h, Forall good_op h -> keys_ok (map fst (ldb_run h)).
Proof.
  assert (X : forall h m, keys_ok (map fst m) -> Forall good_op h -> keys_ok (map fst (fold_left ldb_step h m))).
  { induction h as [|o h IH]; intros m H G; simpl; auto. inversion G as [|? ? Go G']; subst. apply IH; auto.
    destruct o; simpl in Go; cbn [ldb_step]; auto.
    - destruct Go. unfold ldb_addTableEntry, ldb_addSrcTrgInfo, ldb_storeTrg, ldb_addSrcInfo.
      apply ldb_keys_put; [now apply rec_st|]. apply ldb_keys_put; [now apply rec_t|]. apply ldb_keys_put; [now apply rec_s|auto].
    - destruct Go. unfold ldb_incrCountsOfEntry, ldb_addSrcTrgInfo, ldb_storeTrg, ldb_addSrcInfo.
      apply ldb_keys_put; [now apply rec_st|]. apply ldb_keys_put; [now apply rec_t|]. apply ldb_keys_put; [now apply rec_s|auto].
    - apply ldb_keys_put; [now apply rec_s|auto].
    - destruct Go. apply ldb_keys_put; [now apply rec_st|auto].
    - intros k []. }
  intros. apply X; auto. intros k [].
Qed.

(** a record whose vector starts with (t, UNUSED_WORD) is the pair record of some (s,t) *)
Lemma rec_prefix : forall v t s, rec_vec v -> good_trg t -> v = t ++ UNUSED_WORD :: s -> good_src s /\ v = getTrgSrc s t.
Proof.
  intros v t s RV Gt E. pose proof (good_avoids t (proj1 Gt)) as AV. destruct RV as [(s' & G & E')|[G|(s' & t' & G & G2 & E')]].
  - destruct t as [|w t]; [destruct Gt; congruence|]. rewrite E' in E. unfold getSrc in E. inversion E. exfalso. apply AV. left. congruence.
  - exfalso. apply (good_avoids v (proj1 G)). rewrite E. apply in_or_app. simpl. auto.
  - rewrite E' in E. unfold getTrgSrc in E. change ([UNUSED_WORD] ++ s') with (UNUSED_WORD :: s') in E.
    apply split_marker in E; auto; [|apply (good_avoids t' (proj1 G2))]. destruct E; subst. auto.
Qed.
(** the prefix test on bytes is the prefix test on words *)
Lemma is_prefixb_app : forall p l, is_prefixb p l = true <-> exists r, l = p ++ r.
Proof.
  induction p as [|x p IH]; intros l; simpl; [split; [eauto|auto]|]. destruct l as [|y l]; [split; [discriminate|intros [r H]; discriminate]|].
  rewrite andb_true_iff, N.eqb_eq, IH. split.
  - intros [-> [r ->]]. eauto.
  - intros [r H]. inversion H; subst. eauto.
Qed.
Lemma enc_prefix : forall p v, words_below (254^3) p -> words_below (254^3) v -> is_prefixb (pt_vectorToKey p) (pt_vectorToKey v) = true -> exists r, v = p ++ r.
Proof.
  intros p v Hp Hv H. apply is_prefixb_app in H. destruct H as [r E].
  assert (L : (length p <= length v)%nat).
  { assert (X : length (pt_vectorToKey v) = length (pt_vectorToKey p ++ r)) by (now rewrite E). rewrite app_length in X.
    unfold pt_vectorToKey in X. rewrite !enc_vec_length in X. unfold pt_bytes in X. lia. }
  exists (skipn (length p) v). rewrite <- (firstn_skipn (length p) v) at 1. f_equal.
  assert (Hf : words_below (254^3) (firstn (length p) v)). { rewrite <- (firstn_skipn (length p) v) in Hv. apply words_below_app in Hv. tauto. }
  apply pt_key_inj; auto. rewrite <- (firstn_skipn (length p) v) in E. unfold pt_vectorToKey, enc_vec in E. rewrite flat_map_app in E.
  fold (enc_vec pt_bytes (firstn (length p) v)) in E. fold (enc_vec pt_bytes p) in E.
  assert (Z : length (enc_vec pt_bytes (firstn (length p) v)) = length (enc_vec pt_bytes p)) by (rewrite !enc_vec_length, firstn_length_le by lia; reflexivity).
  clear - E Z. revert E Z. unfold pt_vectorToKey. generalize (enc_vec pt_bytes (firstn (length p) v)), (enc_vec pt_bytes p).
  generalize (flat_map (enc_word pt_bytes) (skipn (length p) v)). intros q l l'. revert l'.
  induction l as [|a l IH]; intros [|b l'] E Z; simpl in *; try congruence. inversion E. f_equal. apply IH; auto.
Qed.
Lemma prefix_enc : forall p r, is_prefixb (pt_vectorToKey p) (pt_vectorToKey (p ++ r)) = true.
Proof. intros. apply is_prefixb_app. exists (pt_vectorToKey r). unfold pt_vectorToKey, enc_vec. now rewrite flat_map_app. Qed.

Lemma collect_spec : forall inf t es, good_trg t -> awf es ->
  (forall e, In e es -> exists s, good_src s /\ fst e = trgsrc_key s t) ->
  exists res, collect inf t es = Some res /\
   (forall s cs n, In (s, (cs, n)) res <-> good_src s /\ In (trgsrc_key s t) (map fst es) /\ inf s = Some (cs, n) /\ cs <> 0 /\ n <> 0) /\
   NoDup (map fst res).
Proof.
  intros inf t es Gt. induction es as [|[k c0] es IH]; intros W H.
  - exists []. simpl. split; auto. split; [intros; tauto|constructor].
  - inversion W; subst. destruct IH as (res & E & HI & ND); [auto|intros; apply H; simpl; auto|].
    destruct (H (k, c0)) as (s0 & G0 & Ek); [simpl; auto|]. simpl in Ek. subst k.
    cbn [collect]. replace (pt_keyToVector (trgsrc_key s0 t)) with (Some (getTrgSrc s0 t)).
    2:{ symmetry. apply pt_roundtrip. apply below_trgsrc; apply good_below; auto. apply Gt. }
    assert (L : (length t + 1 <= length (getTrgSrc s0 t))%nat) by (unfold getTrgSrc; rewrite !app_length; simpl; lia).
    destruct (Nat.ltb_spec (length (getTrgSrc s0 t)) (length t + 1)); [lia|].
    assert (SK : skipn (length t + 1) (getTrgSrc s0 t) = s0).
    { unfold getTrgSrc. rewrite app_assoc. rewrite skipn_app. replace (length t + 1)%nat with (length (t ++ [UNUSED_WORD])) by (rewrite app_length; reflexivity).
      rewrite skipn_all, Nat.sub_diag. reflexivity. }
    rewrite SK, E. eexists. split; [reflexivity|].
    assert (NI : ~ In s0 (map fst res)).
    { intro X. apply in_map_iff in X. destruct X as ([s1 [a b]] & E1 & X). simpl in E1. subst s1. apply HI in X. apply H2. simpl. tauto. }
    split.
    + intros s cs n. destruct (inf s0) as [[cs0 n0]|] eqn:EI.
      * destruct (Z.eqb_spec cs0 0); [|destruct (Z.eqb_spec n0 0)]; simpl.
        1,2: rewrite HI; simpl; split; [tauto|]; intros (A & [B|B] & C & D); [apply (proj1 (nk_st _ _ _ _ A Gt G0 Gt)) in B; destruct B; subst; rewrite EI in C; inversion C; subst; tauto|tauto].
        split.
        -- intros [X|X]; [inversion X; subst; auto|apply HI in X; tauto].
        -- intros (A & [B|B] & C & D); [apply (proj1 (nk_st _ _ _ _ A Gt G0 Gt)) in B; destruct B; subst; rewrite EI in C; inversion C; subst; auto|]. right. apply HI. tauto.
      * rewrite HI. simpl. split; [tauto|]. intros (A & [B|B] & C & D); [apply (proj1 (nk_st _ _ _ _ A Gt G0 Gt)) in B; destruct B; subst; congruence|tauto].
    + destruct (inf s0) as [[cs0 n0]|]; auto. destruct (_ || _); auto. simpl. constructor; auto.
Qed.

Lemma hat_entries_trg : forall h t, Forall good_op h -> good_trg t -> exists b res,
  hat_getEntriesForTarget t (hat_run h) = Some (b, res) /\
  (forall x, In x res <-> good_src (fst x) /\ entry_of (contents_after h) t x) /\ NoDup (map fst res) /\ (b = true <-> res <> []).
Proof.
  intros h t G Gt. pose proof (HR_run h G) as HH. pose proof (hat_keys_run h G) as KO. unfold hat_getEntriesForTarget.
  set (m := hat_run h) in *. set (flt := fun e : list N * Z => is_prefixb (trgsrc_key [] t) (fst e)).
  assert (P : forall e, In e (filter flt m) -> exists s, good_src s /\ fst e = trgsrc_key s t).
  { intros e He. apply filter_In in He. destruct He as [He F]. destruct (KO (fst e)) as (v & Ev & RV); [now apply in_map|].
    unfold flt, trgsrc_key in F. rewrite Ev in F. apply enc_prefix in F.
    - destruct F as [r Er]. unfold getTrgSrc in Er. rewrite app_nil_r, <- app_assoc in Er. destruct (rec_prefix v t r RV Gt Er) as [Gr ->]. exists r. auto.
    - apply below_trgsrc; [constructor|apply good_below, Gt].
    - now apply rec_below. }
  destruct (collect_spec (fun s => hat_infSrcTrg s t m) t (filter flt m) Gt (filter_map_nodup _ _ fst flt m (K_ok _ _ _ _ _ HH)) P) as (res & E & HI & ND).
  rewrite E. do 2 eexists. split; [reflexivity|]. split; [|split; [auto|apply nonempty_flag]].
  intros [s [cs n]]. rewrite HI. unfold entry_of, hat_infSrcTrg. simpl. split.
  - intros (A & B & C & D & F). split; auto. unfold hat_getSrcInfo, hat_getSrcTrgInfo in C.
    rewrite (K_src _ _ _ _ _ HH) in C by auto. rewrite (K_st _ _ _ _ _ HH) in C by auto.
    destruct (c_src (contents_after h) s); [|discriminate]. destruct (c_st (contents_after h) s t); [|discriminate]. inversion C; subst. auto.
  - intros (A & B & C & D & F). split; auto. split; [|split; [|auto]].
    + rewrite <- (K_st _ _ _ _ _ HH) in C by auto. apply aget_some_in in C. apply in_map_iff. exists (trgsrc_key s t, n). split; auto.
      apply filter_In. split; auto. unfold flt, trgsrc_key. simpl. replace (getTrgSrc s t) with (getTrgSrc [] t ++ s) by (unfold getTrgSrc; now rewrite app_nil_r, <- app_assoc).
      apply prefix_enc.
    + unfold hat_getSrcInfo, hat_getSrcTrgInfo. rewrite (K_src _ _ _ _ _ HH), (K_st _ _ _ _ _ HH) by auto. now rewrite B, C.
Qed.


Lemma ldb_awf : forall (d : ldb), db_ok d -> awf d.
Proof.
  unfold db_ok, awf. intros d H. induction H as [|a l HS IH HF]; constructor; auto. intro X. rewrite Forall_forall in HF. apply HF in X.
  now apply lexlt_irrefl in X.
Qed.
Lemma lex_between : forall p v a, ~ lexlt v (p ++ [a]) -> lexlt v (p ++ [(a + 1)%N]) -> exists r, v = p ++ a :: r.
Proof.
  induction p as [|x p IH]; intros v a H1 H2; simpl in *.
  - inversion H2; subst; [exfalso; apply H1; constructor| |inversion H3].
    exists l. f_equal. destruct (N.lt_trichotomy x a) as [L|[L|L]]; auto; [|lia]. exfalso. apply H1. now apply lexlt_head.
  - inversion H2; subst.
    + exfalso. apply H1. constructor.
    + exfalso. apply H1. now apply lexlt_head.
    + destruct (IH l a) as [r ->]; auto; [|exists r; auto]. intro X. apply H1. now apply lexlt_tail.
Qed.
Lemma lex_prefix_ge : forall p a r, ~ lexlt (p ++ a :: r) (p ++ [a]).
Proof. induction p; simpl; intros b r H; inversion H; subst; try lia; [inversion H1|]. eapply IHp; eauto. Qed.
Lemma lex_prefix_lt : forall p a r, lexlt (p ++ a :: r) (p ++ [(a + 1)%N]).
Proof. intros. apply lexlt_app_common. apply lexlt_head. lia. Qed.
Lemma enc3 : forall v v', words_below (254^3) v -> words_below (254^3) v' -> (lexlt (pt_vectorToKey v) (pt_vectorToKey v') <-> lexlt v v').
Proof. intros. apply enc_vec_lt_iff; auto. unfold pt_bytes; lia. Qed.
Lemma ldb_entries_trg : forall h t, Forall good_op h -> good_trg t -> exists b res,
  ldb_getEntriesForTarget t (ldb_run h) = Some (b, res) /\
  (forall x, In x res <-> good_src (fst x) /\ entry_of (contents_after h) t x) /\ NoDup (map fst res) /\
  (b = true <-> exists s, good_src s /\ c_st (contents_after h) s t <> None).
Proof.
  intros h t G Gt. pose proof (LW_run h G) as HH. pose proof (ldb_keys_run h G) as KO. unfold ldb_getEntriesForTarget.
  set (m := ldb_run h) in *. set (es := db_range (pt_vectorToKey (t ++ [UNUSED_WORD])) (pt_vectorToKey (t ++ [3%N])) m).
  assert (Wt : forall a, (a < 254^3)%N -> words_below (254^3) (t ++ [a])).
  { intros a La. apply words_below_app. split; [apply good_below, Gt|]. repeat constructor. exact La. }
  assert (P : forall e, In e es -> exists s, good_src s /\ fst e = trgsrc_key s t).
  { intros [k c] He. apply db_range_In in He; [|apply (W_ok _ _ HH)]. destruct He as (He & L1 & L2). simpl.
    destruct (KO k) as (v & Ev & RV); [now apply (in_map fst) in He|]. subst k. pose proof (rec_below v RV) as B.
    rewrite enc3 in L1 by (auto; apply Wt; reflexivity). rewrite enc3 in L2 by (auto; apply Wt; reflexivity).
    destruct (lex_between t v UNUSED_WORD L1 L2) as [r Er]. destruct (rec_prefix v t r RV Gt Er) as [Gr ->]. exists r. auto. }
  assert (C : forall s n, good_src s -> c_st (contents_after h) s t = Some n -> In (trgsrc_key s t, n) es).
  { intros s n Gs E. rewrite <- (W_st _ _ HH) in E by auto. apply db_get_In in E; [|apply (W_ok _ _ HH)].
    apply db_range_In; [apply (W_ok _ _ HH)|]. split; [exact E|]. unfold trgsrc_key.
    assert (B : words_below (254^3) (getTrgSrc s t)) by (apply below_trgsrc; apply good_below; auto; apply Gt).
    rewrite !enc3 by (auto; apply Wt; reflexivity). split; [apply lex_prefix_ge|apply lex_prefix_lt]. }
  assert (D : forall s n, good_src s -> In (trgsrc_key s t, n) es -> c_st (contents_after h) s t = Some n).
  { intros s n Gs HI. apply db_range_In in HI; [|apply (W_ok _ _ HH)]. rewrite <- (W_st _ _ HH) by auto. apply db_get_In; [apply (W_ok _ _ HH)|tauto]. }
  assert (W : awf es).
  { apply ldb_awf. unfold es, db_range. assert (S1 : forall st (d : ldb), db_ok d -> db_ok (db_seek st d)).
    { intros st d. induction d as [|[k v] d IH]; simpl; intro X; auto. destruct (bytes_ltb k st); auto. apply IH. inversion X; auto. }
    assert (S2 : forall st (d : ldb), db_ok d -> db_ok (db_until st d)).
    { intros st d. induction d as [|[k v] d IH]; simpl; intro X; auto. destruct (bytes_ltb k st); [|constructor]. inversion X as [|? ? X1 X2]; subst.
      unfold db_ok. simpl. constructor; [now apply IH|]. apply Forall_forall. intros x Hx. rewrite Forall_forall in X2. apply X2. clear - Hx.
      induction d as [|[k' v'] d IH]; simpl in *; [destruct Hx|]. destruct (bytes_ltb k' st); [|destruct Hx]. simpl in Hx. destruct Hx; auto. }
    apply S2, S1. apply (W_ok _ _ HH). }
  destruct (collect_spec (fun s => ldb_infSrcTrg s t m) t es Gt W P) as (res & E & HI & ND).
  rewrite E. do 2 eexists. split; [reflexivity|]. split; [|split; [auto|]].
  - intros [s [cs n]]. rewrite HI. unfold entry_of, ldb_infSrcTrg. simpl. split.
    + intros (A & B & F & K & L). split; auto. unfold ldb_getSrcInfo, ldb_getSrcTrgInfo in F.
      rewrite (W_src _ _ HH) in F by auto. rewrite (W_st _ _ HH) in F by auto.
      destruct (c_src (contents_after h) s); [|discriminate]. destruct (c_st (contents_after h) s t); [|discriminate]. inversion F; subst. auto.
    + intros (A & B & F & K & L). split; auto. split; [|split; [|auto]].
      * apply in_map_iff. exists (trgsrc_key s t, n). split; auto.
      * unfold ldb_getSrcInfo, ldb_getSrcTrgInfo. rewrite (W_src _ _ HH), (W_st _ _ HH) by auto. now rewrite B, F.
  - rewrite nonempty_flag. split.
    + intro NE. destruct es as [|[k c] r] eqn:Ees; [congruence|]. destruct (P (k, c)) as (s & Gs & Ek); [simpl; auto|]. simpl in Ek. exists s. split; auto.
      rewrite (D s c Gs); [congruence|]. left. congruence.
    + intros (s & Gs & X). destruct (c_st (contents_after h) s t) as [n|] eqn:EX; [|congruence]. apply C in EX; auto. intro Y. rewrite Y in EX. destruct EX.
Qed.

(** HatTrie: entries of a source phrase *)
Lemma suffix_split : forall (v : list N) (u : list N), (length u <= length v)%nat -> skipn (length v - length u) v = u -> v = firstn (length v - length u) v ++ u.
Proof. intros v u L E. rewrite <- (firstn_skipn (length v - length u) v) at 1. now rewrite E. Qed.
Lemma rec_suffix : forall v t s, rec_vec v -> good_src s -> v = t ++ getSrc s -> t <> [] -> good_trg t /\ v = getTrgSrc s t.
Proof.
  intros v t s RV Gs E NE. pose proof (good_avoids s Gs) as AV. destruct RV as [(s' & G & E')|[G|(s' & t' & G & G2 & E')]].
  - exfalso. destruct t as [|w t]; [congruence|]. rewrite E' in E. unfold getSrc in E. inversion E. apply (good_avoids s' G). rewrite H1. apply in_or_app. simpl. auto.
  - exfalso. apply (good_avoids v (proj1 G)). rewrite E. apply in_or_app. simpl. auto.
  - rewrite E' in E. unfold getTrgSrc in E. change ([UNUSED_WORD] ++ s') with (UNUSED_WORD :: s') in E. unfold getSrc in E.
    assert (X : t' = t /\ s' = s).
    { pose proof (f_equal (@rev N) E) as F. rewrite !rev_app_distr in F. simpl in F. rewrite <- !app_assoc in F. simpl in F.
      assert (A1 : ~ In UNUSED_WORD (rev s')) by (rewrite <- in_rev; apply (good_avoids s' G)).
      assert (A2 : ~ In UNUSED_WORD (rev s)) by (rewrite <- in_rev; auto).
      apply split_marker in F; auto. destruct F as [F1 F2]. split; [rewrite <- (rev_involutive t'), <- (rev_involutive t); congruence|rewrite <- (rev_involutive s'), <- (rev_involutive s); congruence]. }
    destruct X; subst. auto.
Qed.
Lemma hat_collect_src_spec : forall s m es, good_src s -> awf es -> keys_ok (map fst es) ->
  exists res, hat_collect_src s m es = Some res /\
   (forall t ct n, In (t, (ct, n)) res <-> good_trg t /\ In (trgsrc_key s t, n) es /\ hat_cTrg t m = ct /\ ct <> 0 /\ n <> 0) /\
   NoDup (map fst res).
Proof.
  intros s m es Gs. induction es as [|[k c] es IH]; intros W KO.
  - exists []. simpl. split; auto. split; [intros; tauto|constructor].
  - inversion W; subst. destruct IH as (res & E & HI & ND); [auto|intros x Hx; apply KO; simpl; auto|].
    destruct (KO k) as (v & Ev & RV); [simpl; auto|]. subst k. cbn [hat_collect_src].
    replace (pt_keyToVector (pt_vectorToKey v)) with (Some v) by (symmetry; apply pt_roundtrip; now apply rec_below).
    rewrite E.
    assert (SKIP : (forall t, good_trg t -> v <> getTrgSrc s t) -> forall t ct n, In (t, (ct, n)) res <->
       good_trg t /\ In (trgsrc_key s t, n) ((pt_vectorToKey v, c) :: es) /\ hat_cTrg t m = ct /\ ct <> 0 /\ n <> 0).
    { intros NV t ct n. rewrite HI. simpl. split; [tauto|]. intros (A & [B|B] & C & D); [|tauto]. exfalso. inversion B as [[B1 B2]]. apply (NV t A).
      apply pt_key_inj in B1; auto; [now apply rec_below|]. apply rec_below. now apply rec_st. }
    destruct (Nat.leb_spec (length v) (length (getSrc s))) as [L|L].
    { exists res. split; auto. split; auto. apply SKIP. intros t Gt Ev. rewrite Ev in L. unfold getTrgSrc, getSrc in L. rewrite !app_length in L. simpl in L.
      destruct t; [destruct Gt; congruence|simpl in L; lia]. }
    destruct (phrase_dec (skipn (length v - length (getSrc s)) v) (getSrc s)) as [E2|N2].
    + apply suffix_split in E2; [|lia]. remember (firstn (length v - length (getSrc s)) v) as t0 eqn:Et0.
      assert (NE : t0 <> []). { intro X. rewrite X in E2. rewrite E2 in L. simpl in L. lia. }
      destruct (rec_suffix v t0 s RV Gs E2 NE) as [Gt0 Ev].
      eexists. split; [reflexivity|].
      assert (NI : ~ In t0 (map fst res)).
      { intro X. apply in_map_iff in X. destruct X as ([t1 [a b]] & E1 & X). simpl in E1. subst t1. apply HI in X. apply H1. destruct X as (_ & X & _).
        apply (in_map fst) in X. simpl in X. unfold trgsrc_key in X. now rewrite <- Ev in X. }
      split.
      * intros t ct n. destruct (Z.eqb_spec (hat_cTrg t0 m) 0); [|destruct (Z.eqb_spec c 0)]; simpl.
        1,2: rewrite HI; simpl; split; [tauto|]; intros (A & [B|B] & C & D & F); [|tauto]; exfalso; inversion B as [[B1 B2]]; rewrite Ev in B1;
          apply (proj1 (nk_st _ _ _ _ Gs A Gs Gt0)) in B1; destruct B1 as [_ B1]; congruence.
        split.
        -- intros [X|X]; [inversion X; subst|apply HI in X; tauto]. split; auto. split; [left; unfold trgsrc_key; congruence|auto].
        -- intros (A & [B|B] & C & D & F); [|right; apply HI; tauto]. inversion B as [[B1 B2]]. rewrite Ev in B1.
           apply (proj1 (nk_st _ _ _ _ Gs A Gs Gt0)) in B1. destruct B1 as [_ B1]. left. rewrite B1, C. reflexivity.
      * destruct (_ || _); auto. simpl. constructor; auto.
    + exists res. split; auto. split; auto. apply SKIP. intros t Gt Ev. apply N2. rewrite Ev. unfold getTrgSrc. change ([UNUSED_WORD] ++ s) with (getSrc s).
      rewrite app_length. replace (length t + length (getSrc s) - length (getSrc s))%nat with (length t) by lia. rewrite skipn_app, skipn_all, Nat.sub_diag. reflexivity.
Qed.
Lemma hat_entries_src : forall h s, Forall good_op h -> good_src s -> exists b res,
  hat_getEntriesForSource s (hat_run h) = Some (b, res) /\
  (forall x, In x res <-> good_trg (fst x) /\ entry_of_src (contents_after h) s x) /\ NoDup (map fst res) /\ (b = true <-> res <> []).
Proof.
  intros h s G Gs. pose proof (HR_run h G) as HH. pose proof (hat_keys_run h G) as KO. unfold hat_getEntriesForSource.
  destruct (hat_collect_src_spec s (hat_run h) (hat_run h) Gs (K_ok _ _ _ _ _ HH) KO) as (res & E & HI & ND).
  rewrite E. do 2 eexists. split; [reflexivity|]. split; [|split; [auto|apply nonempty_flag]].
  intros [t [ct n]]. rewrite HI. unfold entry_of_src. simpl. split.
  - intros (A & B & C & D). split; auto. split; [|split; [|auto]].
    + rewrite <- C. symmetry. now apply (K_trg _ _ _ _ _ HH).
    + rewrite <- (K_st _ _ _ _ _ HH) by auto. apply aget_in; auto. apply (K_ok _ _ _ _ _ HH).
  - intros (A & B & C & D). split; auto. split; [|split; [|auto]].
    + rewrite <- (K_st _ _ _ _ _ HH) in C by auto. now apply aget_some_in in C.
    + rewrite <- B. now apply (K_trg _ _ _ _ _ HH).
Qed.

Lemma stl_targets : forall h p t, stl_run h = Some p -> (exists s, stl_getSrcInfo s p <> None) -> exists b res p',
  stl_getEntriesForTarget t p = Some (b, res, p') /\ (forall x, In x res <-> entry_of (contents_after h) t x) /\ NoDup (map fst res) /\ (b = true <-> res <> []).
Proof.
  intros h p t E [s NE]. apply stl_run_R in E. destruct (stl_entries_trg p _ t E) as (b & res & p' & X & _ & Y).
  - intro Z. apply NE. unfold stl_getSrcInfo. now rewrite Z.
  - exists b, res, p'. auto.
Qed.
Lemma stl_targets_empty : forall h p t, stl_run h = Some p -> (forall s, stl_getSrcInfo s p = None) -> stl_getEntriesForTarget t p = None.
Proof.
  intros h p t E N. apply stl_run_R in E. unfold stl_getEntriesForTarget. destruct (srcPhraseInfo p) as [|[s n] r] eqn:X; auto.
  specialize (N s). unfold stl_getSrcInfo in N. exfalso. assert (Y : db_get s (srcPhraseInfo p) = Some n); [|congruence].
  apply db_get_In; [apply (R_sok _ _ E)|]. rewrite X. simpl. auto.
Qed.
Lemma stl_sources : forall h p s, stl_run h = Some p -> let r := stl_getEntriesForSource s p in
  (forall x, In x (snd r) <-> entry_of_src (contents_after h) s x) /\ NoDup (map fst (snd r)) /\ (fst r = true <-> snd r <> []).
Proof. intros h p s E. apply stl_entries_src. now apply stl_run_R. Qed.
