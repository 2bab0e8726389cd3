From Coq Require Import ZArith NArith QArith List Bool Lia Sorting.Sorted.
From Verif Require Import AMap CodecModel CodecSpec CodecProofs LevelDbModel LevelDbProofs PtSpec PtModel.
Import ListNotations.
Open Scope Z_scope.

(** ** Stl *)
Record R (p : stl) (c : contents) : Prop := {
  R_sok : db_ok (srcPhraseInfo p);
  R_tok : db_ok (trgPhraseInfo p);
  R_stwf : awf (srcTrgPhraseInfo p);
  R_src : forall s, db_get s (srcPhraseInfo p) = c_src c s;
  R_trg : forall t, val (db_get t (trgPhraseInfo p)) = c_trg c t;
  R_st : forall s t, aget pair_dec (s, t) (srcTrgPhraseInfo p) = c_st c s t;
  R_refs : forall s t, c_st c s t <> None -> c_src c s <> None /\ db_get t (trgPhraseInfo p) <> None }.

Lemma db_ok_nil : forall V, @db_ok V []. Proof. intro. constructor. Qed.

Lemma R_empty : R stl_empty no_contents.
Proof. constructor; simpl; try (intros; reflexivity); try constructor; congruence. Qed.

Lemma R_addSrc : forall p c s n, R p c -> R (stl_addSrcInfo s n p) (op_effect c (PAddSrc s n)).
Proof.
  intros p c s n []. constructor; simpl; auto.
  - now apply db_put_ok.
  - intro s'. rewrite db_get_put by auto. unfold upd1, phrase_dec. destruct (list_eq_dec N.eq_dec s' s); auto.
  - intros s' t' H. destruct (R_refs0 _ _ H). split; auto. unfold upd1. destruct (phrase_dec s' s); congruence.
Qed.

Definition with_trg (c : contents) (t : phrase) (n : Z) : contents :=
  {| c_src := c_src c; c_trg := upd1 (c_trg c) t n; c_st := c_st c |}.
Lemma R_addTrg : forall p c t n, R p c -> R (stl_addTrgInfo t n p) (with_trg c t n).
Proof.
  intros p c t n []. constructor; simpl; auto.
  - now apply db_put_ok.
  - intro t'. rewrite db_get_put by auto. unfold upd1, phrase_dec. destruct (list_eq_dec N.eq_dec t' t); auto.
  - intros s' t' H. destruct (R_refs0 _ _ H). split; auto. rewrite db_get_put by auto. destruct (list_eq_dec N.eq_dec t' t); congruence.
Qed.
Lemma R_ext : forall p c c', R p c -> (forall s, c_src c s = c_src c' s) -> (forall t, c_trg c t = c_trg c' t) ->
  (forall s t, c_st c s t = c_st c' s t) -> R p c'.
Proof.
  intros p c c' [] H1 H2 H3. constructor; auto; intros.
  - rewrite <- H1; auto.
  - rewrite <- H2; auto.
  - rewrite <- H3; auto.
  - rewrite <- H3 in H. rewrite <- H1. auto.
Qed.

Lemma key_src : forall s t p, srcPhraseInfo (snd (stl_getSrcTrgKey s t p)) = srcPhraseInfo p.
Proof. intros. unfold stl_getSrcTrgKey. simpl. destruct (db_get t (trgPhraseInfo p)); auto. Qed.
Lemma key_st : forall s t p, srcTrgPhraseInfo (snd (stl_getSrcTrgKey s t p)) = srcTrgPhraseInfo p.
Proof. intros. unfold stl_getSrcTrgKey. simpl. destruct (db_get t (trgPhraseInfo p)); auto. Qed.
Lemma R_key : forall p c s t, R p c -> R (snd (stl_getSrcTrgKey s t p)) c /\ db_get t (trgPhraseInfo (snd (stl_getSrcTrgKey s t p))) <> None.
Proof.
  intros p c s t H. unfold stl_getSrcTrgKey. simpl. destruct (db_get t (trgPhraseInfo p)) eqn:E; simpl.
  - split; auto. congruence.
  - split.
    + eapply R_ext; [apply (R_addTrg _ _ t 0 H)| | |]; simpl; auto.
      intro t'. unfold upd1. destruct (phrase_dec t' t); auto. subst. pose proof (R_trg _ _ H t) as X. rewrite E in X. auto.
    + rewrite db_get_put by (apply (R_tok _ _ H)). destruct (list_eq_dec N.eq_dec t t); congruence.
Qed.
Lemma key_found : forall p c s t, R p c -> fst (stl_getSrcTrgKey s t p) = match c_src c s with Some _ => true | None => false end.
Proof. intros p c s t H. unfold stl_getSrcTrgKey. simpl. rewrite (R_src _ _ H). destruct (c_src c s); auto. Qed.

Lemma R_addSrcTrg : forall p c s t n, R p c -> c_src c s <> None ->
  exists p', stl_addSrcTrgInfo s t n p = Some p' /\ R p' (op_effect c (PAddSrcTrg s t n)).
Proof.
  intros p c s t n H HS. unfold stl_addSrcTrgInfo. destruct (stl_getSrcTrgKey s t p) as [f p'] eqn:E.
  pose proof (key_found p c s t H) as F. destruct (R_key p c s t H) as [RK TK]. rewrite E in F, RK, TK. simpl in *.
  destruct (c_src c s) eqn:CS; [|congruence]. subst f. eexists. split; [reflexivity|].
  destruct RK. constructor; simpl; auto.
  - now apply aset_wf.
  - intros s' t'. rewrite aget_aset. unfold upd2. destruct (pair_dec (s', t') (s, t)) as [X|X].
    + inversion X; subst. destruct (phrase_dec s s); [|congruence]. destruct (phrase_dec t t); congruence.
    + rewrite R_st0. destruct (phrase_dec s' s); auto. destruct (phrase_dec t' t); auto. congruence.
  - intros s' t'. unfold upd2. destruct (phrase_dec s' s); [destruct (phrase_dec t' t)|]; subst; intro X; auto; split; congruence.
Qed.

Lemma getST_val : forall p c s t, R p c -> fst (stl_getSrcTrgInfo s t p) = c_st c s t.
Proof.
  intros p c s t H. unfold stl_getSrcTrgInfo. destruct (stl_getSrcTrgKey s t p) as [f p'] eqn:E.
  pose proof (key_found p c s t H) as F. pose proof (key_st s t p) as K. rewrite E in F, K. simpl in *.
  destruct f; simpl.
  - rewrite K. apply (R_st _ _ H).
  - destruct (c_src c s) eqn:CS; [discriminate|]. destruct (c_st c s t) eqn:CT; auto.
    destruct (R_refs _ _ H s t); congruence.
Qed.
Lemma getST_state : forall s t p, snd (stl_getSrcTrgInfo s t p) = snd (stl_getSrcTrgKey s t p).
Proof. intros. unfold stl_getSrcTrgInfo. destruct (stl_getSrcTrgKey s t p) as [[] p']; auto. Qed.
Lemma cST_val : forall p c s t, R p c -> fst (stl_cSrcTrg s t p) = val (c_st c s t).
Proof. intros. unfold stl_cSrcTrg. rewrite <- (getST_val p c s t H). destruct (stl_getSrcTrgInfo s t p); auto. Qed.
Lemma cST_state : forall s t p, snd (stl_cSrcTrg s t p) = snd (stl_getSrcTrgKey s t p).
Proof. intros. unfold stl_cSrcTrg. rewrite <- getST_state. destruct (stl_getSrcTrgInfo s t p); auto. Qed.
Lemma inf_val : forall p c s t, R p c -> fst (stl_infSrcTrg s t p) =
  match c_src c s, c_st c s t with Some a, Some b => Some (a, b) | _, _ => None end.
Proof.
  intros p c s t H. unfold stl_infSrcTrg, stl_getSrcInfo. rewrite (R_src _ _ H). destruct (c_src c s); auto.
  rewrite <- (getST_val p c s t H). destruct (stl_getSrcTrgInfo s t p) as [[|] ]; auto.
Qed.

Lemma R_step : forall p c o, R p c -> (match o with PAddSrcTrg s _ _ => c_src c s <> None | _ => True end) ->
  exists p', stl_step p o = Some p' /\ R p' (op_effect c o).
Proof.
  intros p c o H L. destruct o as [s t cs cst|s t n|s n|s t n| |s t]; cbn [stl_step].
  - unfold stl_addTableEntry. pose proof (R_addTrg _ _ t (stl_cTrg t p + cst) (R_addSrc _ _ s cs H)) as H1.
    destruct (R_addSrcTrg _ _ s t cst H1) as (p' & E & H2).
    { simpl. unfold upd1. destruct (phrase_dec s s); congruence. }
    exists p'. split; auto. eapply R_ext; [exact H2| | |]; simpl; auto.
    intro t'. unfold upd1. destruct (phrase_dec t' t); auto. subst. unfold stl_cTrg, stl_getTrgInfo. now rewrite (R_trg _ _ H).
  - unfold stl_incrCountsOfEntry. pose proof (cST_val _ _ s t H) as V. pose proof (cST_state s t p) as S1.
    destruct (stl_cSrcTrg s t p) as [k p1]. simpl in V, S1. subst k p1.
    destruct (R_key _ _ s t H) as [H0 _].
    pose proof (R_addTrg _ _ t (stl_cTrg t p + n) (R_addSrc _ _ s (stl_cSrc s p + n) H0)) as H1.
    destruct (R_addSrcTrg _ _ s t (val (c_st c s t) + n) H1) as (p' & E & H2).
    { simpl. unfold upd1. destruct (phrase_dec s s); congruence. }
    exists p'. split; auto. eapply R_ext; [exact H2| | |]; simpl; auto.
    + intro s'. unfold upd1. destruct (phrase_dec s' s); auto. subst. unfold stl_cSrc, stl_getSrcInfo. now rewrite (R_src _ _ H).
    + intro t'. unfold upd1. destruct (phrase_dec t' t); auto. subst. unfold stl_cTrg, stl_getTrgInfo. now rewrite (R_trg _ _ H).
  - eexists. split; [reflexivity|]. now apply R_addSrc.
  - now apply R_addSrcTrg.
  - eexists. split; [reflexivity|]. exact R_empty.
  - eexists. split; [reflexivity|]. rewrite cST_state. now apply R_key.
Qed.

Lemma R_run_from : forall h p c, R p c -> legal_from c h ->
  exists p', stl_run_from p h = Some p' /\ R p' (fold_left op_effect h c).
Proof.
  induction h as [|o h IH]; intros p c H L; simpl in *; [eauto|].
  destruct L as [L1 L2]. destruct (R_step p c o H L1) as (p' & E & H'). rewrite E. now apply IH.
Qed.
Lemma R_run_from_inv : forall h p c p', R p c -> stl_run_from p h = Some p' -> legal_from c h /\ R p' (fold_left op_effect h c).
Proof.
  induction h as [|o h IH]; intros p c p' H E; simpl in *.
  - inversion E; subst; auto.
  - destruct (stl_step p o) as [p1|] eqn:E1; [|discriminate].
    assert (L : match o with PAddSrcTrg s _ _ => c_src c s <> None | _ => True end).
    { destruct o; auto. cbn [stl_step] in E1. unfold stl_addSrcTrgInfo in E1. destruct (stl_getSrcTrgKey s t p) as [f p2] eqn:K.
      pose proof (key_found p c s t H) as F. rewrite K in F. simpl in F. destruct f; [|discriminate]. destruct (c_src c s); congruence. }
    destruct (R_step p c o H L) as (p2 & E2 & H2). rewrite E1 in E2. inversion E2; subst. destruct (IH _ _ _ H2 E). auto.
Qed.
Lemma stl_run_R : forall h p, stl_run h = Some p -> R p (contents_after h).
Proof. intros h p E. eapply R_run_from_inv; [apply R_empty|exact E]. Qed.
Lemma stl_legal : forall h, legal h <-> exists p, stl_run h = Some p.
Proof.
  intro h. split.
  - intro L. destruct (R_run_from h _ _ R_empty L) as (p & E & _). eauto.
  - intros [p E]. eapply R_run_from_inv; [apply R_empty|exact E].
Qed.
Lemma legal_app : forall h1 h2 c, legal_from c (h1 ++ h2) <-> legal_from c h1 /\ legal_from (fold_left op_effect h1 c) h2.
Proof. induction h1 as [|o h1 IH]; intros; simpl; [tauto|]. rewrite IH. tauto. Qed.

Lemma stl_contents : forall h p s t, stl_run h = Some p ->
  stl_getSrcInfo s p = c_src (contents_after h) s /\ stl_cTrg t p = c_trg (contents_after h) t /\
  fst (stl_getSrcTrgInfo s t p) = c_st (contents_after h) s t.
Proof.
  intros h p s t E. apply stl_run_R in E. split; [|split].
  - apply (R_src _ _ E).
  - apply (R_trg _ _ E).
  - now apply getST_val.
Qed.

Lemma stl_add_frame : forall h p s t cs cst, stl_run h = Some p -> exists p', stl_addTableEntry s t cs cst p = Some p' /\
  stl_cSrc s p' = cs /\ stl_cTrg t p' = stl_cTrg t p + cst /\ fst (stl_cSrcTrg s t p') = cst /\
  (forall s', s' <> s -> stl_getSrcInfo s' p' = stl_getSrcInfo s' p) /\
  (forall t', t' <> t -> stl_cTrg t' p' = stl_cTrg t' p) /\
  (forall s' t', (s', t') <> (s, t) -> fst (stl_getSrcTrgInfo s' t' p') = fst (stl_getSrcTrgInfo s' t' p)).
Proof.
  intros h p s t cs cst E. apply stl_run_R in E. destruct (R_step p _ (PAdd s t cs cst) E I) as (p' & E' & H'). exists p'.
  split; [exact E'|]. unfold stl_cSrc, stl_cTrg, stl_getSrcInfo, stl_getTrgInfo.
  rewrite (cST_val _ _ _ _ H'), (R_src _ _ H'), !(R_trg _ _ H'), (R_trg _ _ E). simpl. unfold upd1, upd2.
  destruct (phrase_dec s s); [|congruence]. destruct (phrase_dec t t); [|congruence]. simpl.
  split; [auto|split; [auto|split; [auto|split; [|split]]]].
  - intros s' N. rewrite (R_src _ _ H'), (R_src _ _ E). simpl. unfold upd1. destruct (phrase_dec s' s); congruence.
  - intros t' N. rewrite (R_trg _ _ H'), (R_trg _ _ E). simpl. unfold upd1. destruct (phrase_dec t' t); congruence.
  - intros s' t' N. rewrite (getST_val _ _ _ _ H'), (getST_val _ _ _ _ E). simpl. unfold upd2.
    destruct (phrase_dec s' s); auto. destruct (phrase_dec t' t); congruence.
Qed.
Lemma stl_incr_frame : forall h p s t n, stl_run h = Some p -> exists p', stl_incrCountsOfEntry s t n p = Some p' /\
  stl_cSrc s p' = stl_cSrc s p + n /\ stl_cTrg t p' = stl_cTrg t p + n /\ fst (stl_cSrcTrg s t p') = fst (stl_cSrcTrg s t p) + n /\
  (forall s', s' <> s -> stl_getSrcInfo s' p' = stl_getSrcInfo s' p) /\
  (forall t', t' <> t -> stl_cTrg t' p' = stl_cTrg t' p) /\
  (forall s' t', (s', t') <> (s, t) -> fst (stl_getSrcTrgInfo s' t' p') = fst (stl_getSrcTrgInfo s' t' p)).
Proof.
  intros h p s t n E. apply stl_run_R in E. destruct (R_step p _ (PIncr s t n) E I) as (p' & E' & H'). exists p'.
  split; [exact E'|]. unfold stl_cSrc, stl_cTrg, stl_getSrcInfo, stl_getTrgInfo.
  rewrite (cST_val _ _ _ _ H'), (cST_val _ _ _ _ E), !(R_src _ _ H'), !(R_src _ _ E), !(R_trg _ _ H'), (R_trg _ _ E). simpl. unfold upd1, upd2.
  destruct (phrase_dec s s); [|congruence]. destruct (phrase_dec t t); [|congruence]. simpl.
  split; [auto|split; [auto|split; [auto|split; [|split]]]].
  - intros s' N. rewrite (R_src _ _ H'), (R_src _ _ E). simpl. unfold upd1. destruct (phrase_dec s' s); congruence.
  - intros t' N. rewrite (R_trg _ _ H'), (R_trg _ _ E). simpl. unfold upd1. destruct (phrase_dec t' t); congruence.
  - intros s' t' N. rewrite (getST_val _ _ _ _ H'), (getST_val _ _ _ _ E). simpl. unfold upd2.
    destruct (phrase_dec s' s); auto. destruct (phrase_dec t' t); congruence.
Qed.
Lemma stl_addSrcTrg_unknown : forall h p s t n, stl_run h = Some p -> stl_getSrcInfo s p = None -> stl_addSrcTrgInfo s t n p = None.
Proof.
  intros h p s t n E H. apply stl_run_R in E. unfold stl_addSrcTrgInfo. pose proof (key_found _ _ s t E) as F.
  destruct (stl_getSrcTrgKey s t p) as [f q]. simpl in F. unfold stl_getSrcInfo in H. rewrite (R_src _ _ E) in H. rewrite H in F. now subst.
Qed.

(** ** queries *)
Lemma db_put_length : forall V k (v : V) d, db_ok d -> length (db_put k v d) = match db_get k d with Some _ => length d | None => S (length d) end.
Proof.
  induction d as [|[k1 v1] d IH]; intro H; simpl; auto. destruct (bytes_ltb k k1); auto. destruct (bytes_ltb k1 k); auto.
  simpl. rewrite IH; [destruct (db_get k d); auto|]. inversion H; auto.
Qed.
Lemma stl_query_frame : forall h p s t, stl_run h = Some p ->
  let p' := snd (stl_cSrcTrg s t p) in
  (forall s', stl_getSrcInfo s' p' = stl_getSrcInfo s' p) /\
  (forall t', stl_cTrg t' p' = stl_cTrg t' p) /\
  (forall s' t', fst (stl_getSrcTrgInfo s' t' p') = fst (stl_getSrcTrgInfo s' t' p)) /\
  (forall s' t', fst (stl_infSrcTrg s' t' p') = fst (stl_infSrcTrg s' t' p)) /\
  stl_size p' = (stl_size p + match stl_getTrgInfo t p with Some _ => 0 | None => 1 end)%nat /\
  snd (stl_cSrcTrg s t p') = p'.
Proof.
  intros h p s t E p'. apply stl_run_R in E. unfold p'. rewrite cST_state. destruct (R_key _ _ s t E) as [H' K].
  split; [|split; [|split; [|split; [|split]]]].
  - intro s'. unfold stl_getSrcInfo. now rewrite (R_src _ _ E), (R_src _ _ H').
  - intro t'. unfold stl_cTrg, stl_getTrgInfo. now rewrite (R_trg _ _ E), (R_trg _ _ H').
  - intros. now rewrite (getST_val _ _ _ _ E), (getST_val _ _ _ _ H').
  - intros. now rewrite (inf_val _ _ _ _ E), (inf_val _ _ _ _ H').
  - unfold stl_getTrgInfo, stl_size. rewrite key_src, key_st. unfold stl_getSrcTrgKey. simpl.
    destruct (db_get t (trgPhraseInfo p)) eqn:X; [lia|]. simpl. rewrite db_put_length by (apply (R_tok _ _ E)). rewrite X. lia.
  - rewrite cST_state. set (q := snd (stl_getSrcTrgKey s t p)) in *. unfold stl_getSrcTrgKey. simpl.
    destruct (db_get t (trgPhraseInfo q)); [auto|congruence].
Qed.

(** ** marginals *)
Lemma val_upd1 : forall f s n k, val (upd1 f s (Some n) k) = if phrase_dec k s then n else val (f k).
Proof. intros. unfold upd1. destruct (phrase_dec k s); auto. Qed.
Lemma val_upd2 : forall f s t n k l, val (upd2 f s t (Some n) k l) = if phrase_dec k s then if phrase_dec l t then n else val (f k l) else val (f k l).
Proof. intros. unfold upd2. destruct (phrase_dec k s); auto. destruct (phrase_dec l t); auto. Qed.
Lemma sum_ext : forall (L : list phrase) f g, (forall x, In x L -> f x = g x) -> sumZ (map f L) = sumZ (map g L).
Proof. induction L; simpl; intros f g H; auto. rewrite (H a); auto. rewrite (IHL f g); auto. Qed.
Lemma sum_upd : forall (L : list phrase) f t n, NoDup L -> In t L ->
  sumZ (map (fun x => if phrase_dec x t then f x + n else f x) L) = sumZ (map f L) + n.
Proof.
  induction L as [|a L IH]; simpl; intros f t n ND HI; [tauto|]. inversion ND; subst. destruct (phrase_dec a t).
  - subst. rewrite (sum_ext L _ f); [lia|]. intros x Hx. destruct (phrase_dec x t); congruence.
  - destruct HI; [congruence|]. rewrite IH; auto. lia.
Qed.
Lemma incr_marg_src : forall h c s L, only_incr h -> NoDup L -> incl (trg_with s h) L ->
  sumZ (map (fun t => val (c_st (fold_left op_effect h c) s t)) L) - sumZ (map (fun t => val (c_st c s t)) L)
  = val (c_src (fold_left op_effect h c) s) - val (c_src c s).
Proof.
  induction h as [|o h IH]; intros c s L OI ND IN; [simpl; lia|]. inversion OI as [|? ? Ho OI']; subst.
  destruct o as [| s1 t1 n | | | |s1 t1]; try contradiction; cbn [fold_left].
  - assert (IN' : incl (trg_with s h) L) by (intros x Hx; apply IN; unfold trg_with; simpl; apply in_or_app; auto).
    pose proof (IH (op_effect c (PIncr s1 t1 n)) s L OI' ND IN') as X.
    assert (V : val (c_src (op_effect c (PIncr s1 t1 n)) s) = if phrase_dec s s1 then val (c_src c s1) + n else val (c_src c s)) by apply val_upd1.
    destruct (phrase_dec s s1).
    + subst s1. assert (It : In t1 L). { apply IN. unfold trg_with. simpl. destruct (phrase_dec s s); [|congruence]. simpl. auto. }
      rewrite (sum_ext L (fun t => val (c_st (op_effect c (PIncr s t1 n)) s t)) (fun x => if phrase_dec x t1 then val (c_st c s x) + n else val (c_st c s x))) in X.
      * rewrite sum_upd in X by auto. lia.
      * intros x _. cbn [op_effect c_st]. rewrite val_upd2. destruct (phrase_dec s s); [|congruence]. destruct (phrase_dec x t1); congruence.
    + rewrite (sum_ext L (fun t => val (c_st (op_effect c (PIncr s1 t1 n)) s t)) (fun x => val (c_st c s x))) in X; [lia|].
      intros x _. cbn [op_effect c_st]. rewrite val_upd2. destruct (phrase_dec s s1); congruence.
  - apply IH; auto.
Qed.
Lemma incr_marg_trg : forall h c t L, only_incr h -> NoDup L -> incl (src_with t h) L ->
  sumZ (map (fun s => val (c_st (fold_left op_effect h c) s t)) L) - sumZ (map (fun s => val (c_st c s t)) L)
  = c_trg (fold_left op_effect h c) t - c_trg c t.
Proof.
  induction h as [|o h IH]; intros c t L OI ND IN; [simpl; lia|]. inversion OI as [|? ? Ho OI']; subst.
  destruct o as [| s1 t1 n | | | |s1 t1]; try contradiction; cbn [fold_left].
  - assert (IN' : incl (src_with t h) L) by (intros x Hx; apply IN; unfold src_with; simpl; apply in_or_app; auto).
    pose proof (IH (op_effect c (PIncr s1 t1 n)) t L OI' ND IN') as X.
    assert (V : c_trg (op_effect c (PIncr s1 t1 n)) t = if phrase_dec t t1 then c_trg c t1 + n else c_trg c t) by reflexivity.
    destruct (phrase_dec t t1).
    + subst t1. assert (It : In s1 L). { apply IN. unfold src_with. simpl. destruct (phrase_dec t t); [|congruence]. simpl. auto. }
      rewrite (sum_ext L (fun s => val (c_st (op_effect c (PIncr s1 t n)) s t)) (fun x => if phrase_dec x s1 then val (c_st c x t) + n else val (c_st c x t))) in X.
      * rewrite sum_upd in X by auto. lia.
      * intros x _. cbn [op_effect c_st]. rewrite val_upd2. destruct (phrase_dec x s1); auto. destruct (phrase_dec t t); congruence.
    + rewrite (sum_ext L (fun s => val (c_st (op_effect c (PIncr s1 t1 n)) s t)) (fun x => val (c_st c x t))) in X; [lia|].
      intros x _. cbn [op_effect c_st]. rewrite val_upd2. destruct (phrase_dec x s1); auto. destruct (phrase_dec t t1); congruence.
  - apply IH; auto.
Qed.
Lemma sum_zero : forall (L : list phrase), sumZ (map (fun _ => 0) L) = 0.
Proof. induction L; simpl; lia. Qed.
Lemma stl_marginal_src : forall h p s L, only_incr h -> stl_run h = Some p -> NoDup L -> incl (trg_with s h) L ->
  stl_cSrc s p = sumZ (map (fun t => fst (stl_cSrcTrg s t p)) L).
Proof.
  intros h p s L OI E ND IN. apply stl_run_R in E. pose proof (incr_marg_src h no_contents s L OI ND IN) as X.
  unfold stl_cSrc, stl_getSrcInfo. rewrite (R_src _ _ E).
  rewrite (sum_ext L _ (fun t => val (c_st (contents_after h) s t))); [|intros; now apply cST_val].
  simpl in X. rewrite sum_zero in X. unfold contents_after. lia.
Qed.
Lemma stl_marginal_trg : forall h p t L, only_incr h -> stl_run h = Some p -> NoDup L -> incl (src_with t h) L ->
  stl_cTrg t p = sumZ (map (fun s => fst (stl_cSrcTrg s t p)) L).
Proof.
  intros h p t L OI E ND IN. apply stl_run_R in E. pose proof (incr_marg_trg h no_contents t L OI ND IN) as X.
  unfold stl_cTrg, stl_getTrgInfo. rewrite (R_trg _ _ E).
  rewrite (sum_ext L _ (fun s => val (c_st (contents_after h) s t))); [|intros; now apply cST_val].
  simpl in X. rewrite sum_zero in X. unfold contents_after. lia.
Qed.

Lemma pos_only : forall h, positive_incr h -> only_incr h.
Proof. intros h H. eapply Forall_impl; [|exact H]. intros []; auto. Qed.
(** counts of seen pairs are positive *)
Lemma pos_grow : forall h c s t, positive_incr h -> 0 <= val (c_st c s t) ->
  val (c_st c s t) <= val (c_st (fold_left op_effect h c) s t) /\ (In t (trg_with s h) -> 0 < val (c_st (fold_left op_effect h c) s t)).
Proof.
  induction h as [|o h IH]; intros c s t P N; [simpl; split; [lia|tauto]|]. inversion P as [|? ? Ho P']; subst.
  destruct o as [| s1 t1 n | | | |s1 t1]; try contradiction; cbn [fold_left].
  - assert (V : val (c_st (op_effect c (PIncr s1 t1 n)) s t) = if phrase_dec s s1 then if phrase_dec t t1 then val (c_st c s1 t1) + n else val (c_st c s t) else val (c_st c s t)) by apply val_upd2.
    assert (G : val (c_st c s t) <= val (c_st (op_effect c (PIncr s1 t1 n)) s t)).
    { rewrite V. destruct (phrase_dec s s1); [destruct (phrase_dec t t1)|]; subst; lia. }
    destruct (IH (op_effect c (PIncr s1 t1 n)) s t P' ltac:(lia)) as [A B]. split; [lia|].
    change (trg_with s (PIncr s1 t1 n :: h)) with ((if phrase_dec s1 s then [t1] else []) ++ trg_with s h).
    intro HI. apply in_app_or in HI. destruct HI as [HI|HI]; [|auto].
    destruct (phrase_dec s1 s); [|destruct HI]. destruct HI as [<-|[]]. subst s1. rewrite V in A, G.
    destruct (phrase_dec s s); [|congruence]. destruct (phrase_dec t1 t1); [|congruence]. lia.
  - apply (IH c s t P' N).
Qed.
Lemma src_trg_with : forall h s t, In s (src_with t h) <-> In t (trg_with s h).
Proof.
  induction h as [|o h IH]; intros; unfold src_with, trg_with; simpl; [tauto|]. rewrite !in_app_iff.
  fold (src_with t h). fold (trg_with s h). rewrite IH. destruct o; simpl; try tauto.
  destruct (phrase_dec t0 t), (phrase_dec s0 s); simpl; subst; intuition congruence.
Qed.

Lemma sumQ_ratio : forall (L : list phrase) (f : phrase -> Z) d, (0 < d) ->
  (sumQ (map (fun x => ratio (f x) d) L) == ratio (sumZ (map f L)) d)%Q.
Proof.
  intros L f d P. induction L as [|x L IH]; simpl.
  - unfold ratio. simpl. unfold Qdiv. rewrite Qmult_0_l. reflexivity.
  - rewrite IH. unfold ratio. rewrite inject_Z_plus. field. intro X. unfold Qeq in X. simpl in X. lia.
Qed.
Lemma sumQ_ext : forall (L : list phrase) f g, (forall x, In x L -> f x = g x) -> sumQ (map f L) = sumQ (map g L).
Proof. induction L; simpl; intros f g H; auto. rewrite (H a); auto. rewrite (IHL f g); auto. Qed.
Lemma ratio_self : forall d, 0 < d -> (ratio d d == 1)%Q.
Proof. intros d P. unfold ratio. field. intro X. unfold Qeq in X. simpl in X. lia. Qed.
Lemma sumZ_pos : forall (L : list phrase) f, L <> [] -> (forall x, In x L -> 0 < f x) -> 0 < sumZ (map f L).
Proof.
  induction L as [|x L IH]; simpl; intros f NE H; [congruence|]. destruct L as [|y L].
  - simpl. specialize (H x (or_introl eq_refl)). lia.
  - pose proof (H x (or_introl eq_refl)). assert (0 < sumZ (map f (y :: L))) by (apply IH; [congruence|intros; apply H; simpl in *; tauto]). lia.
Qed.
Lemma p_sum_src : forall h p s L, positive_incr h -> stl_run h = Some p -> NoDup L -> (forall t, In t L <-> In t (trg_with s h)) -> L <> [] ->
  (sumQ (map (fun t => fst (stl_pTrgGivenSrc s t p)) L) == 1)%Q.
Proof.
  intros h p s L P E ND IN NE. pose proof (stl_marginal_src h p s L (pos_only _ P) E ND (fun x Hx => proj2 (IN x) Hx)) as M.
  pose proof (stl_run_R _ _ E) as HR.
  assert (PV : forall t, In t L -> 0 < fst (stl_cSrcTrg s t p)).
  { intros t Ht. rewrite (cST_val _ _ _ _ HR). apply (pos_grow h no_contents s t P); [simpl; lia|now apply IN]. }
  assert (PS : 0 < stl_cSrc s p) by (rewrite M; now apply sumZ_pos).
  rewrite (sumQ_ext L _ (fun t => ratio (fst (stl_cSrcTrg s t p)) (stl_cSrc s p))).
  - rewrite sumQ_ratio by auto. rewrite <- M. now apply ratio_self.
  - intros t Ht. unfold stl_pTrgGivenSrc. pose proof (PV t Ht) as X. pose proof (cST_state s t p) as ST.
    destruct (stl_cSrcTrg s t p) as [k p']. cbn [fst snd] in *. subst p'.
    assert (Y : stl_cSrc s (snd (stl_getSrcTrgKey s t p)) = stl_cSrc s p) by (unfold stl_cSrc, stl_getSrcInfo; now rewrite key_src). rewrite Y.
    destruct (Z.ltb_spec 0 k); [|lia]. destruct (Z.ltb_spec 0 (stl_cSrc s p)); [reflexivity|lia].
Qed.
Lemma p_sum_trg : forall h p t L, positive_incr h -> stl_run h = Some p -> NoDup L -> (forall s, In s L <-> In s (src_with t h)) -> L <> [] ->
  (sumQ (map (fun s => fst (stl_pSrcGivenTrg s t p)) L) == 1)%Q.
Proof.
  intros h p t L P E ND IN NE. pose proof (stl_marginal_trg h p t L (pos_only _ P) E ND (fun x Hx => proj2 (IN x) Hx)) as M.
  pose proof (stl_run_R _ _ E) as HR.
  assert (PV : forall s, In s L -> 0 < fst (stl_cSrcTrg s t p)).
  { intros s Hs. rewrite (cST_val _ _ _ _ HR). apply (pos_grow h no_contents s t P); [simpl; lia|]. apply src_trg_with. now apply IN. }
  assert (PS : 0 < stl_cTrg t p) by (rewrite M; now apply sumZ_pos).
  rewrite (sumQ_ext L _ (fun s => ratio (fst (stl_cSrcTrg s t p)) (stl_cTrg t p))).
  - rewrite sumQ_ratio by auto. rewrite <- M. now apply ratio_self.
  - intros s Hs. unfold stl_pSrcGivenTrg. pose proof (PV s Hs) as X. pose proof (cST_state s t p) as ST.
    destruct (stl_cSrcTrg s t p) as [k p']. cbn [fst snd] in *. subst p'.
    assert (Y : stl_cTrg t (snd (stl_getSrcTrgKey s t p)) = stl_cTrg t p).
    { unfold stl_cTrg, stl_getTrgInfo. rewrite (R_trg _ _ HR). apply (R_trg _ _ (proj1 (R_key _ _ s t HR))). } rewrite Y.
    destruct (Z.ltb_spec 0 k); [|lia]. destruct (Z.ltb_spec 0 (stl_cTrg t p)); [reflexivity|lia].
Qed.

(** ** byte-key backends: generic refinement *)
Lemma good_below : forall s, good_src s -> words_below (254 ^ 3) s.
Proof. intros s H. eapply Forall_impl; [|exact H]. simpl. tauto. Qed.
Lemma good_avoids : forall s, good_src s -> avoids UNUSED_WORD s.
Proof. intros s H HI. unfold good_src in H. rewrite Forall_forall in H. apply H in HI. destruct HI as [_ HI]. apply HI. reflexivity. Qed.

Lemma nk_src : forall s s', good_src s -> good_src s' -> (src_key s' = src_key s <-> s' = s).
Proof. intros. split; [apply src_key_inj; now apply good_below|now intros ->]. Qed.
Lemma nk_trg : forall s s', good_trg s -> good_trg s' -> (trg_key s' = trg_key s <-> s' = s).
Proof. intros s s' [H _] [H' _]. split; [apply pt_key_inj; now apply good_below|now intros ->]. Qed.
Lemma nk_st : forall s t s' t', good_src s -> good_trg t -> good_src s' -> good_trg t' ->
  (trgsrc_key s' t' = trgsrc_key s t <-> s' = s /\ t' = t).
Proof.
  intros s t s' t' H1 [H2 _] H3 [H4 _]. split; [|now intros [-> ->]].
  apply trgsrc_key_inj; try now apply good_below. all: now apply good_avoids.
Qed.
Lemma nk_s_t : forall s t, good_src s -> good_trg t -> src_key s <> trg_key t.
Proof. intros s t H [H2 _]. apply src_trg_disjoint; try now apply good_below. now apply good_avoids. Qed.
Lemma nk_t_st : forall s t t', good_src s -> good_trg t -> good_trg t' -> trgsrc_key s t <> trg_key t'.
Proof. intros s t t' H [H2 _] [H3 _]. apply trg_trgsrc_disjoint; try now apply good_below. now apply good_avoids. Qed.
Lemma nk_s_st : forall s' s t, good_src s' -> good_src s -> good_trg t -> src_key s' <> trgsrc_key s t.
Proof. intros s' s t H H1 [H2 NE]. apply src_trgsrc_disjoint; auto; try now apply good_below. now apply good_avoids. Qed.

Section KV.
Variable M : Type.
Variable get : list N -> M -> option Z.
Variable put : list N -> Z -> M -> M.
Variable Ok : M -> Prop.
Hypothesis put_ok : forall k v m, Ok m -> Ok (put k v m).
Hypothesis get_put : forall k v m k', Ok m -> get k' (put k v m) = if list_eq_dec N.eq_dec k' k then Some v else get k' m.

Record KR (m : M) (c : contents) : Prop := {
  K_ok : Ok m;
  K_src : forall s, good_src s -> get (src_key s) m = c_src c s;
  K_trg : forall t, good_trg t -> val (get (trg_key t) m) = c_trg c t;
  K_st : forall s t, good_src s -> good_trg t -> get (trgsrc_key s t) m = c_st c s t }.

Lemma KR_ext : forall m c c', KR m c -> (forall s, c_src c s = c_src c' s) -> (forall t, c_trg c t = c_trg c' t) ->
  (forall s t, c_st c s t = c_st c' s t) -> KR m c'.
Proof.
  intros m c c' [] H1 H2 H3. constructor; auto; intros.
  - rewrite <- H1; auto.
  - rewrite <- H2; auto.
  - rewrite <- H3; auto.
Qed.
Ltac kd := match goal with |- context [list_eq_dec N.eq_dec ?a ?b] => destruct (list_eq_dec N.eq_dec a b) as [KE|KE] end.
Lemma KR_src : forall m c s n, KR m c -> good_src s -> KR (put (src_key s) n m) (op_effect c (PAddSrc s n)).
Proof.
  intros m c s n [] G. constructor; simpl; auto; intros; rewrite get_put by auto; kd.
  - apply (proj1 (nk_src _ _ G H)) in KE. unfold upd1. destruct (phrase_dec s0 s); congruence.
  - unfold upd1. destruct (phrase_dec s0 s); subst; [congruence|auto].
  - symmetry in KE. now apply nk_s_t in KE.
  - auto.
  - symmetry in KE. now apply nk_s_st in KE.
  - auto.
Qed.
Lemma KR_trg : forall m c t n, KR m c -> good_trg t -> KR (put (trg_key t) n m) (with_trg c t n).
Proof.
  intros m c t n [] G. constructor; simpl; auto; intros; rewrite get_put by auto; kd.
  - now apply nk_s_t in KE.
  - auto.
  - apply (proj1 (nk_trg _ _ G H)) in KE. unfold upd1. destruct (phrase_dec t0 t); [reflexivity|congruence].
  - unfold upd1. destruct (phrase_dec t0 t); subst; [congruence|auto].
  - apply nk_t_st in KE; tauto.
  - auto.
Qed.
Lemma KR_st : forall m c s t n, KR m c -> good_src s -> good_trg t -> KR (put (trgsrc_key s t) n m) (op_effect c (PAddSrcTrg s t n)).
Proof.
  intros m c s t n [] G G2. constructor; simpl; auto; intros; rewrite get_put by auto; kd.
  - now apply nk_s_st in KE.
  - auto.
  - symmetry in KE. now apply nk_t_st in KE.
  - auto.
  - apply (proj1 (nk_st _ _ _ _ G G2 H H0)) in KE. destruct KE; subst. unfold upd2. destruct (phrase_dec s s); [|congruence]. destruct (phrase_dec t t); congruence.
  - unfold upd2. destruct (phrase_dec s0 s); auto. destruct (phrase_dec t0 t); subst; [congruence|auto].
Qed.

Definition kv_addsum (s t : phrase) (a b c : Z) (m : M) : M := put (trgsrc_key s t) c (put (trg_key t) b (put (src_key s) a m)).
Lemma KR_three : forall m c s t x y z, KR m c -> good_src s -> good_trg t ->
  KR (kv_addsum s t x y z m) {| c_src := upd1 (c_src c) s (Some x); c_trg := upd1 (c_trg c) t y; c_st := upd2 (c_st c) s t (Some z) |}.
Proof.
  intros. unfold kv_addsum. pose proof (KR_st _ _ s t z (KR_trg _ _ t y (KR_src _ _ s x H H0) H1) H0 H1) as X. exact X.
Qed.
End KV.

Lemma hat_get_put : forall k v (m : hat) k', True -> aget bytes_dec k' (aset bytes_dec k v m) = if list_eq_dec N.eq_dec k' k then Some v else aget bytes_dec k' m.
Proof. intros. apply aget_aset. Qed.
Definition HR := KR hat (aget bytes_dec) (fun m => awf m).
Lemma hat_put_wf : forall k v (m : hat), awf m -> awf (aset bytes_dec k v m).
Proof. intros. now apply aset_wf. Qed.
Lemma hat_gp : forall k v (m : hat) k', awf m -> aget bytes_dec k' (aset bytes_dec k v m) = if list_eq_dec N.eq_dec k' k then Some v else aget bytes_dec k' m.
Proof. intros. apply aget_aset. Qed.

Lemma HR_step : forall m c o, HR m c -> good_op o -> HR (hat_step m o) (op_effect c o).
Proof.
  intros m c o H G. destruct o as [s t cs cst|s t n|s n|s t n| |s t]; cbn [hat_step op_effect]; simpl in G.
  - destruct G. unfold hat_addTableEntry, hat_cTrg, hat_getTrgInfo. rewrite (K_trg _ _ _ _ _ H) by auto.
    apply (KR_three hat (aget bytes_dec) (aset bytes_dec) _ hat_put_wf hat_gp); auto.
  - destruct G. unfold hat_incrCountsOfEntry, hat_cTrg, hat_getTrgInfo, hat_cSrc, hat_cSrcTrg, hat_getSrcInfo, hat_getSrcTrgInfo.
    rewrite (K_trg _ _ _ _ _ H), (K_src _ _ _ _ _ H), (K_st _ _ _ _ _ H) by auto.
    apply (KR_three hat (aget bytes_dec) (aset bytes_dec) _ hat_put_wf hat_gp); auto.
  - apply (KR_src hat (aget bytes_dec) (aset bytes_dec) _ hat_put_wf hat_gp); auto.
  - destruct G. apply (KR_st hat (aget bytes_dec) (aset bytes_dec) _ hat_put_wf hat_gp); auto.
  - constructor; simpl; auto. constructor.
  - auto.
Qed.
Lemma HR_run_from : forall h m c, HR m c -> Forall good_op h -> HR (fold_left hat_step h m) (fold_left op_effect h c).
Proof. induction h as [|o h IH]; intros m c H G; simpl; auto. inversion G; subst. apply IH; auto. now apply HR_step. Qed.
Lemma HR_run : forall h, Forall good_op h -> HR (hat_run h) (contents_after h).
Proof. intros. apply HR_run_from; auto. constructor; simpl; auto. constructor. Qed.

Definition LR := KR ldb db_get db_ok.
Lemma ldb_gp : forall k v (m : ldb) k', db_ok m -> db_get k' (db_put k v m) = if list_eq_dec N.eq_dec k' k then Some v else db_get k' m.
Proof. intros. now apply db_get_put. Qed.
Lemma LR_step : forall m c o, LR m c -> good_op o -> (match o with PAdd _ t _ _ => c_trg c t = 0 | _ => True end) -> LR (ldb_step m o) (op_effect c o).
Proof.
  intros m c o H G F. destruct o as [s t cs cst|s t n|s n|s t n| |s t]; cbn [ldb_step op_effect]; simpl in G.
  - destruct G. unfold ldb_addTableEntry. rewrite F. apply (KR_three ldb db_get db_put _ (db_put_ok Z) ldb_gp); auto.
  - destruct G. unfold ldb_incrCountsOfEntry, ldb_cTrg, ldb_getTrgInfo, ldb_cSrc, ldb_cSrcTrg, ldb_getSrcInfo, ldb_getSrcTrgInfo.
    rewrite (K_trg _ _ _ _ _ H), (K_src _ _ _ _ _ H), (K_st _ _ _ _ _ H) by auto.
    apply (KR_three ldb db_get db_put _ (db_put_ok Z) ldb_gp); auto.
  - apply (KR_src ldb db_get db_put _ (db_put_ok Z) ldb_gp); auto.
  - destruct G. apply (KR_st ldb db_get db_put _ (db_put_ok Z) ldb_gp); auto.
  - constructor; simpl; auto. constructor.
  - auto.
Qed.
Lemma LR_run_from : forall h m c, LR m c -> Forall good_op h -> fresh_adds_from c h -> LR (fold_left ldb_step h m) (fold_left op_effect h c).
Proof.
  induction h as [|o h IH]; intros m c H G F; simpl in *; auto. inversion G; subst. destruct F. apply IH; auto. now apply LR_step.
Qed.
Lemma LR_run : forall h, Forall good_op h -> fresh_adds h -> LR (ldb_run h) (contents_after h).
Proof. intros. apply LR_run_from; auto. constructor; simpl; auto. constructor. Qed.

(** without the freshness condition: sources and pairs still agree *)
Record LW (m : ldb) (c : contents) : Prop := {
  W_ok : db_ok m;
  W_src : forall s, good_src s -> db_get (src_key s) m = c_src c s;
  W_st : forall s t, good_src s -> good_trg t -> db_get (trgsrc_key s t) m = c_st c s t }.
Lemma LW_LR : forall m c, LW m c -> LR m {| c_src := c_src c; c_trg := fun t => val (db_get (trg_key t) m); c_st := c_st c |}.
Proof. intros m c []. constructor; auto. Qed.
Lemma LR_LW : forall m c c', LR m c -> (forall s, c_src c s = c_src c' s) -> (forall s t, c_st c s t = c_st c' s t) -> LW m c'.
Proof. intros m c c' [] H1 H2. constructor; auto; intros. - rewrite <- H1; auto. - rewrite <- H2; auto. Qed.
Lemma LW_step : forall m c o, LW m c -> good_op o -> LW (ldb_step m o) (op_effect c o).
Proof.
  intros m c o H G. pose proof (LW_LR _ _ H) as HL.
  destruct o as [s t cs cst|s t n|s n|s t n| |s t].
  - simpl in G. destruct G. cbn [ldb_step]. unfold ldb_addTableEntry.
    eapply LR_LW; [apply (KR_three ldb db_get db_put _ (db_put_ok Z) ldb_gp _ _ s t cs cst cst HL); auto| |]; reflexivity.
  - eapply LR_LW; [apply (LR_step _ _ _ HL G I)| |]; reflexivity.
  - eapply LR_LW; [apply (LR_step _ _ _ HL G I)| |]; reflexivity.
  - eapply LR_LW; [apply (LR_step _ _ _ HL G I)| |]; reflexivity.
  - eapply LR_LW; [apply (LR_step _ _ _ HL G I)| |]; reflexivity.
  - exact H.
Qed.
Lemma LW_run : forall h, Forall good_op h -> LW (ldb_run h) (contents_after h).
Proof.
  assert (X : forall h m c, LW m c -> Forall good_op h -> LW (fold_left ldb_step h m) (fold_left op_effect h c)).
  { induction h as [|o h IH]; intros m c H G; simpl; auto. inversion G; subst. apply IH; auto. now apply LW_step. }
  intros. apply X; auto. constructor; simpl; auto. constructor.
Qed.

Lemma stl_hat_agree : forall h p, Forall good_op h -> stl_run h = Some p ->
  (forall s, good_src s -> hat_getSrcInfo s (hat_run h) = stl_getSrcInfo s p) /\
  (forall t, good_trg t -> hat_cTrg t (hat_run h) = stl_cTrg t p) /\
  (forall s t, good_src s -> good_trg t -> hat_getSrcTrgInfo s t (hat_run h) = fst (stl_getSrcTrgInfo s t p)) /\
  (forall s t, good_src s -> good_trg t -> hat_infSrcTrg s t (hat_run h) = fst (stl_infSrcTrg s t p)).
Proof.
  intros h p G E. apply stl_run_R in E. pose proof (HR_run h G) as HH.
  assert (A : forall s, good_src s -> hat_getSrcInfo s (hat_run h) = stl_getSrcInfo s p).
  { intros. unfold hat_getSrcInfo, stl_getSrcInfo. rewrite (R_src _ _ E). now apply (K_src _ _ _ _ _ HH). }
  assert (B : forall s t, good_src s -> good_trg t -> hat_getSrcTrgInfo s t (hat_run h) = fst (stl_getSrcTrgInfo s t p)).
  { intros. rewrite (getST_val _ _ _ _ E). now apply (K_st _ _ _ _ _ HH). }
  split; [auto|split; [|split; [auto|]]].
  - intros. unfold hat_cTrg, hat_getTrgInfo, stl_cTrg, stl_getTrgInfo. rewrite (R_trg _ _ E). now apply (K_trg _ _ _ _ _ HH).
  - intros. unfold hat_infSrcTrg. rewrite A, B by auto. rewrite (inf_val _ _ _ _ E), (getST_val _ _ _ _ E). unfold stl_getSrcInfo.
    rewrite (R_src _ _ E). reflexivity.
Qed.
Lemma stl_ldb_agree : forall h p, Forall good_op h -> stl_run h = Some p ->
  (forall s, good_src s -> ldb_getSrcInfo s (ldb_run h) = stl_getSrcInfo s p) /\
  (forall s t, good_src s -> good_trg t -> ldb_getSrcTrgInfo s t (ldb_run h) = fst (stl_getSrcTrgInfo s t p)) /\
  (forall s t, good_src s -> good_trg t -> ldb_infSrcTrg s t (ldb_run h) = fst (stl_infSrcTrg s t p)) /\
  (fresh_adds h -> forall t, good_trg t -> ldb_cTrg t (ldb_run h) = stl_cTrg t p).
Proof.
  intros h p G E. apply stl_run_R in E. pose proof (LW_run h G) as HH.
  assert (A : forall s, good_src s -> ldb_getSrcInfo s (ldb_run h) = stl_getSrcInfo s p).
  { intros. unfold ldb_getSrcInfo, stl_getSrcInfo. rewrite (R_src _ _ E). now apply (W_src _ _ HH). }
  assert (B : forall s t, good_src s -> good_trg t -> ldb_getSrcTrgInfo s t (ldb_run h) = fst (stl_getSrcTrgInfo s t p)).
  { intros. rewrite (getST_val _ _ _ _ E). now apply (W_st _ _ HH). }
  split; [auto|split; [auto|split]].
  - intros. unfold ldb_infSrcTrg. rewrite A, B by auto. rewrite (inf_val _ _ _ _ E), (getST_val _ _ _ _ E). unfold stl_getSrcInfo.
    rewrite (R_src _ _ E). reflexivity.
  - intros F t Gt. unfold ldb_cTrg, ldb_getTrgInfo, stl_cTrg, stl_getTrgInfo. rewrite (R_trg _ _ E). now apply (K_trg _ _ _ _ _ (LR_run h G F)).
Qed.
(** addTableEntry on an already counted target: the LevelDB table forgets the old total *)
Lemma ldb_overwrites : forall h p p' s t cs cst, Forall good_op h -> stl_run h = Some p -> good_src s -> good_trg t ->
  stl_addTableEntry s t cs cst p = Some p' -> ldb_cTrg t (ldb_addTableEntry s t cs cst (ldb_run h)) = cst /\ stl_cTrg t p' = stl_cTrg t p + cst.
Proof.
  intros h p p' s t cs cst G E Gs Gt E'. split.
  - pose proof (LW_LR _ _ (LW_run h G)) as X.
    pose proof (KR_three ldb db_get db_put _ (db_put_ok Z) ldb_gp _ _ s t cs cst cst X Gs Gt) as Y.
    unfold ldb_cTrg, ldb_getTrgInfo. change (ldb_addTableEntry s t cs cst (ldb_run h)) with (kv_addsum ldb db_put s t cs cst cst (ldb_run h)).
    rewrite (K_trg _ _ _ _ _ Y) by auto. simpl. unfold upd1. destruct (phrase_dec t t); congruence.
  - destruct (stl_add_frame h p s t cs cst E) as (q & Eq & _ & T & _). rewrite E' in Eq. inversion Eq; subst. auto.
Qed.
