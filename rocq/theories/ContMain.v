(** Alignment containers: printing, operations, printing against the original file. *)
From Coq Require Import Ascii String Arith ZArith NArith QArith List Bool Lia Sorted.
From Verif Require Import TextSpec TextModel TextProofs VocabSpec VocabModel VocabProofs AligSpec AligModel AligProofs PmModel PmText GfmtModel GfmtProofs GfmtText WgfSpec WgfModel WgfText GizaSpec GizaModel GizaText GizaProofs GizaTotal ContSpec ContModel ContProofs.
Import ListNotations.
Local Open Scope nat_scope.
Lemma F2_len : forall (A B : Type) (R : A -> B -> Prop) a b, Forall2 R a b -> length a = length b.
Proof. intros A B R a b F. induction F; cbn; congruence. Qed.
Lemma F2_map_r : forall (A B : Type) (R : A -> B -> Prop) (f : A -> B) l, (forall x, In x l -> R x (f x)) -> Forall2 R l (map f l).
Proof. intros A B R f. induction l as [|x l IH]; intros H; constructor; [apply H; now left|apply IH; intros y Y; apply H; now right]. Qed.
Lemma turns_ok : forall tr f es, read_giza f = Some es -> Forall (storable tr) es -> Forall wf_entry (map (turn tr) es) /\ Forall (fun e => bnd (e_al e)) (map (turn tr) es) /\ Forall2 (seen tr) es (map (turn tr) es).
Proof.
  intros tr f es R F. pose proof (read_bnd _ _ R) as B. clear R. induction es as [|e es IH]; [repeat constructor|]. inversion F as [|? ? A F']; subst. inversion B as [|? ? A2 B']; subst. destruct (IH F' B') as (P1 & P2 & P3). destruct (turn_wf tr e A A2) as (Q1 & Q2 & Q3). repeat split; constructor; assumption.
Qed.
Lemma find_first : forall p es e, find (same_pair p) es = Some e -> exists l1 l2, es = l1 ++ e :: l2 /\ pair_of e = p /\ ~ In p (map pair_of l1).
Proof.
  intros p. induction es as [|a es IH]; intros e H; [discriminate|]. cbn [find] in H. destruct (same_pair p a) eqn:E.
  - injection H as <-. exists [], es. split; [reflexivity|]. split; [now apply same_pair_true|intros []].
  - destruct (IH _ H) as (l1 & l2 & -> & X & N). exists (a :: l1), l2. split; [reflexivity|]. split; [exact X|]. intros [Y|Y]; [|contradiction]. apply same_pair_true in Y. congruence.
Qed.
Lemma inv_empty : inv (mkcont [] [] []).
Proof. repeat split; constructor. Qed.
Lemma slook_extract : forall es c, c = fold_left store es (mkcont [] [] []) -> inv c /\ forall p, slook c p = match find (same_pair p) es with Some e => Some (e_al e, occurrences p es) | None => None end.
Proof.
  intros es c ->. destruct (stores_ok es _ inv_empty) as [I1 L]. split; [exact I1|]. intros p. rewrite L. replace (slook (mkcont [] [] []) p) with (@None (wam * nat)); [reflexivity|]. unfold slook, sget. cbn [c_tv c_map snd]. now destruct (known (snd p) []).
Qed.
Lemma ops_of_combine : forall qs gs, length qs = length gs -> ops_of qs gs = combine (map (fun q : ccall => fst (fst q)) qs) (map (fun x : ccall * list entry => map (turn (snd (fst (fst x)))) (snd x)) (combine qs gs)).
Proof. unfold ops_of. induction qs as [|q qs IH]; intros [|g gs] H; try discriminate; [reflexivity|]. cbn [combine map fst snd]. f_equal. apply IH. now injection H. Qed.
Lemma operands_ok : forall p ops, Forall (fun q : aop * list entry => Forall wf_entry (snd q)) ops -> Forall (fun q => dims_of p (snd q)) (operands p ops).
Proof.
  intros p. unfold operands. induction ops as [|[o es] ops IH]; intros F; [constructor|]. inversion F as [|? ? A F']; subst. cbn [flat_map fst snd]. apply Forall_app. split; [|now apply IH]. cbn [snd] in A. apply Forall_forall. intros [o' m] I1. apply in_map_iff in I1 as (e & E & I1). injection E as <- <-. apply filter_In in I1 as [I1 I2]. apply same_pair_true in I2 as <-. cbn [snd]. apply wf_dims. rewrite Forall_forall in A. now apply A.
Qed.
Lemma entry_wf : forall p a e, wf_entry e -> pair_of e = p -> dims_of p a -> bnd a -> wf_entry (entry_of p a).
Proof.
  intros p a e (NE & PN & NO & PT & DI & DJ & SM & B0) <- [D1 D2] B. unfold entry_of, pair_of, wf_entry in *. cbn [e_ns e_t e_al fst snd] in *. repeat split; auto.
Qed.
Lemma slook_final : forall es ops c, Forall wf_entry es -> Forall (fun e => bnd (e_al e)) es -> Forall (fun q : aop * list entry => Forall wf_entry (snd q)) ops ->
  (forall p, slook c p = upds (operands p ops) (match find (same_pair p) es with Some e => Some (e_al e, occurrences p es) | None => None end)) ->
  (forall p, slook c p = None <-> ~ In p (map pair_of es)) /\
  forall p a n, slook c p = Some (a, n) -> n = occurrences p es /\ kept es ops p a /\ wf_entry (entry_of p a).
Proof.
  intros es ops c W B WO L. split.
  - intros p. rewrite L, <- find_occ. destruct (find (same_pair p) es); cbn [upds]; split; intros H; congruence.
  - intros p a n H. rewrite L in H. destruct (find (same_pair p) es) as [e|] eqn:E; [|discriminate]. cbn [upds] in H. injection H as <- <-. split; [reflexivity|].
    destruct (find_first _ _ _ E) as (l1 & l2 & ES & PE & NI). assert (IE : In e es) by (rewrite ES; apply in_or_app; right; now left). rewrite Forall_forall in W, B.
    destruct (runf_ok p (operands p ops) (e_al e)) as (P1 & P2 & P3); [rewrite <- PE; apply wf_dims, W, IE|apply B, IE|now apply operands_ok|].
    split; [exists l1, e, l2; auto|]. eapply entry_wf; [apply W, IE|exact PE|exact P1|exact P2].
Qed.
Lemma hgood_count : forall e n, wf_entry e -> exists q, hgood (T "# " ++ dec n, e) q /\ (q == inject_Z (Z.of_nat n))%Q.
Proof.
  intros e n W. destruct (atofq_dec n) as (q & EQ & VQ). exists q. split; [|exact VQ]. split; [exact W|]. cbn [fst snd]. assert (H : flds (T "# " ++ dec n) = [T "#"; dec n]) by apply header_fields, dec_clean. split; [apply good_app; [split; cbn; intuition discriminate|apply good_clean, dec_clean]|].
  unfold giza_header. rewrite !dol, H. cbn [length nth Nat.eqb Nat.leb Nat.ltb andb orb]. destruct (str_dec (T "#") (T "#")); [|contradiction]. cbn [orb]. now rewrite EQ.
Qed.
Lemma in_F2 : forall (A B : Type) (R : A -> B -> Prop) a b y, Forall2 R a b -> In y b -> exists x, In x a /\ R x y.
Proof. intros A B R a b y F. induction F as [|x y' a b H F IH]; intros I1; [destruct I1|]. destruct I1 as [<-|I1]; [exists x; split; [now left|exact H]|]. destruct (IH I1) as (z & Z1 & Z2). exists z. split; [now right|exact Z2]. Qed.
Lemma in_F2l : forall (A B : Type) (R : A -> B -> Prop) a b x, Forall2 R a b -> In x a -> exists y, In y b /\ R x y.
Proof. intros A B R a b y F. induction F as [|x y' a b H F IH]; intros I1; [destruct I1|]. destruct I1 as [<-|I1]; [exists y'; split; [now left|exact H]|]. destruct (IH I1) as (z & Z1 & Z2). exists z. split; [now right|exact Z2]. Qed.
Lemma F2_pairs : forall l lc, Forall2 (fun (x : str * entry) c => e_ns c = e_ns (snd x) /\ e_t c = e_t (snd x) /\ wsame (e_al (snd x)) (e_al c)) l lc -> map pair_of lc = map (fun x => pair_of (snd x)) l.
Proof. intros l lc F. induction F as [|x c l lc (A & B & _) F IH]; [reflexivity|]. cbn [map]. rewrite IH. unfold pair_of. now rewrite A, B. Qed.
Lemma F2_and : forall (A B : Type) (R S1 : A -> B -> Prop) a b, Forall2 R a b -> Forall2 S1 a b -> Forall2 (fun x y => R x y /\ S1 x y) a b.
Proof. intros A B R S1 a b F. induction F as [|x y a b H F IH]; intros G; [constructor|]. inversion G; subst. constructor; auto. Qed.
Theorem compact_ok : forall es ops c, inv c -> Forall wf_entry es -> Forall (fun e => bnd (e_al e)) es -> Forall (fun q : aop * list entry => Forall wf_entry (snd q)) ops ->
  (forall p, slook c p = upds (operands p ops) (match find (same_pair p) es with Some e => Some (e_al e, occurrences p es) | None => None end)) ->
  exists txt lc, printCompact c = Some txt /\ read_giza txt = Some lc /\ NoDup (map pair_of lc) /\ (forall p, In p (map pair_of lc) <-> In p (map pair_of es)) /\
    forall x, In x lc -> (e_reps x == inject_Z (Z.of_nat (occurrences (pair_of x) es)))%Q /\ exists r, kept es ops (pair_of x) r /\ wsame r (e_al x).
Proof.
  intros es ops c I0 W B WO L. destruct (slook_final es ops c W B WO L) as [SN SS].
  assert (H : forall x, In x (compact_entries c) -> exists p a, slook c p = Some (a, occurrences p es) /\ x = (T "# " ++ dec (occurrences p es), entry_of p a) /\ kept es ops p a /\ wf_entry (entry_of p a)).
  { intros [h e] I1. apply (compact_in c h e I0) in I1 as (p & a & n & A1 & -> & ->). destruct (SS _ _ _ A1) as (-> & K & WE). exists p, a. auto. }
  assert (Q : forall l, (forall x, In x l -> exists p a, slook c p = Some (a, occurrences p es) /\ x = (T "# " ++ dec (occurrences p es), entry_of p a) /\ kept es ops p a /\ wf_entry (entry_of p a)) ->
     exists qs, Forall2 hgood l qs /\ Forall2 (fun x q => exists p a, x = (T "# " ++ dec (occurrences p es), entry_of p a) /\ kept es ops p a /\ (q == inject_Z (Z.of_nat (occurrences p es)))%Q) l qs).
  { induction l as [|x l IH]; intros HX; [exists []; split; constructor|]. destruct (HX x (or_introl eq_refl)) as (p & a & _ & -> & K & WE). destruct IH as (qs & Q1 & Q2); [intros y Y; apply HX; now right|]. destruct (hgood_count _ (occurrences p es) WE) as (q & G & V). exists (q :: qs). split; constructor; auto. exists p, a. auto. }
  destruct (Q _ H) as (qs & Q1 & Q2). destruct (print_all_ok _ _ Q1) as (txt & lc & P & R & F & M). exists txt, lc. split; [exact P|]. split; [exact R|]. rewrite (F2_pairs _ _ F). split; [now apply compact_nodup|]. split.
  - intros p. split.
    + intros I1. apply in_map_iff in I1 as (x & <- & I1). destruct (H _ I1) as (p' & a & A1 & -> & _). cbn [snd]. replace (pair_of (entry_of p' a)) with p' by (now destruct p'). destruct (in_dec pair_eq p' (map pair_of es)) as [Y|N]; [exact Y|]. apply SN in N. congruence.
    + intros I1. destruct (slook c p) as [[a n]|] eqn:E; [|exfalso; now apply (proj1 (SN p))]. apply in_map_iff. exists (T "# " ++ dec n, entry_of p a). split; [now destruct p|]. apply compact_in; [exact I0|]. exists p, a, n. auto.
  - intros x I1. subst qs. assert (Q3 : Forall2 (fun y z => exists p a, y = (T "# " ++ dec (occurrences p es), entry_of p a) /\ kept es ops p a /\ (e_reps z == inject_Z (Z.of_nat (occurrences p es)))%Q) (compact_entries c) lc).
    { clear - Q2. revert Q2. generalize (compact_entries c) as l. induction lc as [|z lc IH]; intros [|y l] Q2; inversion Q2; subst; constructor; auto. }
    destruct (in_F2 _ _ _ _ _ x (F2_and _ _ _ _ _ _ F Q3) I1) as (y & _ & (E1 & E2 & WS) & (p & a & -> & K & V)). cbn [snd e_ns e_t e_al entry_of] in *. assert (PX : pair_of x = p) by (unfold pair_of; rewrite E1, E2; now destruct p). rewrite PX. split; [exact V|]. exists a. auto.
Qed.
(** ** printing against the original file *)
Lemma nc_none : forall e sv v n k, NoDup sv -> Forall (fun i => valid (i_s i) sv) v -> known (e_ns e) sv = Some k -> ~ In k (map i_s v) -> nc_infos n e sv v = ([], n).
Proof.
  intros e sv. induction v as [|i v IH]; intros n k D V K N; [reflexivity|]. inversion V as [|? ? VI V']; subst. cbn [nc_infos]. destruct (strs_dec (e_ns e) (decode (i_s i) sv)) as [E|_].
  - exfalso. apply N. left. pose proof (decode_known _ _ D VI) as X. rewrite <- E, K in X. now injection X.
  - eapply IH; eauto. intros Y. apply N. now right.
Qed.
Lemma nc_one : forall e sv v n k a m, NoDup sv -> NoDup (map i_s v) -> Forall (fun i => valid (i_s i) sv) v -> known (e_ns e) sv = Some k -> vget k v = Some (a, m) ->
  nc_infos n e sv v = ([(T "# Sentence " ++ dec (S n), mkent (e_ns e) (e_t e) a 0)], S n).
Proof.
  intros e sv. induction v as [|i v IH]; intros n k a m D DV V K G; [discriminate|]. inversion V as [|? ? VI V']; subst. inversion DV as [|? ? NI DV']; subst. cbn [vget] in G. cbn [nc_infos]. destruct (ids_dec (i_s i) k) as [<-|N].
  - injection G as <- <-. destruct (strs_dec (e_ns e) (decode (i_s i) sv)) as [_|N]; [|exfalso; apply N; destruct (known_decode _ _ _ K) as [<- _]; reflexivity]. rewrite (nc_none e sv v (S n) (i_s i) D V' K NI). reflexivity.
  - destruct (strs_dec (e_ns e) (decode (i_s i) sv)) as [E|_]; [|eapply IH; eauto]. exfalso. apply N. pose proof (decode_known _ _ D VI) as X. rewrite <- E, K in X. now injection X.
Qed.
Lemma nc_ok : forall es c n, inv c -> (forall e, In e es -> slook c (pair_of e) <> None) ->
  Forall2 (fun e x => exists k a m, slook c (pair_of e) = Some (a, m) /\ x = (T "# Sentence " ++ dec k, mkent (e_ns e) (e_t e) a 0)) es (nc_entries n es c).
Proof.
  induction es as [|e es IH]; intros c n I0 H; [constructor|]. cbn [nc_entries]. destruct (encode (e_t e) (c_tv c)) as [t_ui tv] eqn:E. destruct I0 as (DT & DS & SO & FA). destruct (encode_ok _ _ _ _ DT E) as (DT' & (x & ->) & K).
  assert (I0 : inv c) by (repeat split; assumption). assert (DS0 : NoDup (c_sv c ++ [])) by now rewrite app_nil_r. pose proof (inv_ext c x [] I0 DT' DS0) as I1. pose proof (fun p => slook_ext c x [] p I0 DT' DS0) as LK. rewrite app_nil_r in I1, LK.
  pose proof (H e (or_introl eq_refl)) as S1. rewrite <- LK in S1. unfold slook, sget in S1. cbn [c_tv c_map c_sv pair_of fst snd] in S1. rewrite K in S1. destruct (mget t_ui (c_map c)) as [v|] eqn:G; [|contradiction]. unfold svget in S1. destruct (known (e_ns e) (c_sv c)) as [k|] eqn:KS; [|contradiction]. destruct (vget k v) as [[a m]|] eqn:V; [|contradiction].
  pose proof (mget_valid (c_map c) t_ui v (fun k v => valid k (c_tv c) /\ vec_ok (c_sv c) v) FA G) as [_ [ND VV]]. rewrite (nc_one e (c_sv c) v n k a m DS ND VV KS V). cbn [app]. constructor.
  - exists (S n), a, m. split; [|reflexivity]. rewrite <- LK. unfold slook, sget. cbn [c_tv c_map c_sv pair_of fst snd]. rewrite K, G. unfold svget. now rewrite KS.
  - assert (X : Forall2 (fun e x0 => exists k a m, slook (mkcont (c_map c) (c_tv c ++ x) (c_sv c)) (pair_of e) = Some (a, m) /\ x0 = (T "# Sentence " ++ dec k, mkent (e_ns e) (e_t e) a 0)) es (nc_entries (S n) es (mkcont (c_map c) (c_tv c ++ x) (c_sv c)))).
    { apply IH; [exact I1|]. intros e' I2. rewrite LK. apply H. now right. }
    clear - X LK. induction X as [|e' x0 es l (k & a & m & A1 & A2) X IH2]; constructor; [|exact IH2]. exists k, a, m. now rewrite <- LK.
Qed.
Lemma hgood_sentence : forall e n, wf_entry e -> hgood (T "# Sentence " ++ dec n, e) 1.
Proof.
  intros e n W. split; [exact W|]. cbn [fst snd].
  assert (H : flds (T "# Sentence " ++ dec n) = [T "#"; T "Sentence"; dec n]).
  { change (T "# Sentence " ++ dec n) with (T "#" ++ SP :: (T "Sentence" ++ SP :: dec n)). rewrite flds_clean_sp by apply hash_clean. rewrite flds_clean_sp; [|unfold clean; cbn; intuition discriminate]. now rewrite flds_one by apply dec_clean. }
  split.
  - apply good_app; [split; cbn; intuition discriminate|apply good_clean, dec_clean].
  - unfold giza_header. rewrite !dol, H. cbn [length nth Nat.eqb Nat.leb Nat.ltb andb orb]. destruct (str_dec (T "#") (T "#")); [|contradiction]. reflexivity.
Qed.
Theorem nocompact_ok : forall f es ops c, read_giza f = Some es -> inv c -> Forall wf_entry es -> Forall (fun e => bnd (e_al e)) es -> Forall (fun q : aop * list entry => Forall wf_entry (snd q)) ops ->
  (forall p, slook c p = upds (operands p ops) (match find (same_pair p) es with Some e => Some (e_al e, occurrences p es) | None => None end)) ->
  exists txt lc, printNoCompact f c = Some txt /\ read_giza txt = Some lc /\
    Forall2 (fun e x => pair_of x = pair_of e /\ e_reps x = 1%Q /\ exists r, kept es ops (pair_of e) r /\ wsame r (e_al x)) es lc.
Proof.
  intros f es ops c RD I0 W B WO L. destruct (slook_final es ops c W B WO L) as [SN SS]. unfold printNoCompact. rewrite RD.
  assert (H : forall e, In e es -> slook c (pair_of e) <> None) by (intros e I1 N; apply SN in N; apply N; now apply in_map).
  pose proof (nc_ok es c 0 I0 H) as N. clear H. remember (nc_entries 0 es c) as l eqn:EL. clear EL RD.
  assert (G : Forall2 hgood l (map (fun _ => 1%Q) l)).
  { apply F2_map_r. intros x I1. destruct (in_F2 _ _ _ _ _ _ N I1) as (e & _ & k & a & m & A1 & ->). apply hgood_sentence. destruct (SS _ _ _ A1) as (_ & _ & WE). exact WE. }
  destruct (print_all_ok _ _ G) as (txt & lc & P & R & F & M). exists txt, lc. split; [exact P|]. split; [exact R|].
  clear P R G. assert (X : forall y, In y lc -> e_reps y = 1%Q).
  { intros y I1. apply (in_map e_reps) in I1. rewrite M in I1. apply in_map_iff in I1 as (x & <- & _). reflexivity. }
  clear M. revert X. revert lc F. clear W B WO SN. clear L. assert (SS' : forall p a n, slook c p = Some (a, n) -> kept es ops p a) by (intros p a n A; now destruct (SS p a n A) as (_ & K & _)). clear SS. revert SS'. generalize (kept es ops). intros KK SS. induction N as [|e x es1 l (k & a & m & A1 & ->) N IH]; intros lc F X; inversion F as [|? y ? lc' (E1 & E2 & WS) F']; subst; constructor.
  - cbn [snd e_ns e_t e_al] in *. split; [unfold pair_of; congruence|]. split; [apply X; now left|]. exists a. split; [|exact WS]. eapply SS; exact A1.
  - apply IH; [exact F'|]. intros z Z. apply X. now right.
Qed.
