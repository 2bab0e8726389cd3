From Coq Require Import Reals NArith Arith List Bool Lra Lia FunctionalExtensionality.
From Verif Require Import AMap RSums MathModel MathProofs LogNum LogNumProofs Ibm1Spec Ibm1Model Ibm1TrainProofs HmmSpec HmmModel HmmVitProofs HmmCacheProofs HmmFwdProofs HmmProofs HmmPostProofs Ibm2Model NdProofs NdGen HmmTrainModel HmmTrainSpec HmmTransProofs HmmEstepProofs HmmTrainProofs.
Import ListNotations.
Open Scope R_scope.
Lemma sum_shift : forall (f : nat -> R) k, sumf f (seq 1 k) = sumf (fun i => f (S i)) (seq 0 k).
Proof. intros f k. rewrite <- seq_shift, sumf_map. reflexivity. Qed.
Definition agree_ex (z : option R) (p : pair) (e : expect) (v : hexp) : Prop :=
  (forall j i, (j < length (trg p))%nat -> (i < 2 * length (src p))%nat -> exp (lex_val v (j, i)) = state_ex e j (S i)) /\
  (forall i, (i < counted z (length (src p)))%nat -> exp (alig_val v (0, i, 0)%nat) = first_ex e (S i)) /\
  (forall j i' i, (S j < length (trg p))%nat -> (1 <= i' <= counted z (length (src p)))%nat -> (i < counted z (length (src p)))%nat -> exp (alig_val v (S j, i, i')) = trans_ex e j i' (S i)).
Lemma estep_agree : forall M p, smoothing_ok M -> ~ In NULL_WORD (src p) -> husable p ->
  agree_ex (p0 M) p (expectations (HmmModel.vocab M) (lsf M) (asf M) (p0 M) (P_of M) p) (hstep_e M p).
Proof.
  intros M p SM HN [[U1 _] [U2 _]]. split; [|split].
  - intros j i J I. rewrite <- (est_state M SM p HN U1 j (S i) J ltac:(lia)). do 3 f_equal. lia.
  - intros i I. rewrite <- (est_first M SM p HN U1 (S i) ltac:(destruct (trg p); [cbn in U2; lia|discriminate]) ltac:(lia)). do 3 f_equal. f_equal. lia.
  - intros j i' i J I1 I2. rewrite <- (est_trans M SM p HN U1 j i' (S i) J I1 ltac:(lia)). do 3 f_equal. f_equal. lia.
Qed.
Lemma sumf_nested : forall {A B} (f : A * B -> R) (l : list A) (r : list B), sumf f (flat_map (fun a => map (fun b => (a, b)) r) l) = sumf (fun a => sumf (fun b => f (a, b)) r) l.
Proof. intros. rewrite sumf_flat_map. apply sumf_ext. intros a _. apply sumf_map. Qed.
Lemma sumf_zero : forall {A} (f : A -> R) l, (forall x, In x l -> f x = 0) -> sumf f l = 0.
Proof. intros A f l H. rewrite (sumf_ext _ (fun _ => 0)); [apply sumf_0|exact H]. Qed.
Lemma sumf_one : forall (f : nat -> R) l k, NoDup l -> In k l -> (forall x, In x l -> x <> k -> f x = 0) -> sumf f l = f k.
Proof.
  intros f l k ND I H. rewrite <- (sumf_ind f l k ND I). apply sumf_ext. intros x Hx. destruct (Nat.eqb_spec x k); [lra|]. rewrite H by assumption. lra.
Qed.
Lemma nodup_filter : forall (f : nat -> bool) l, NoDup l -> NoDup (filter f l).
Proof. intros. now apply NoDup_filter. Qed.
Lemma lex_cnt_ok : forall D z n x e s t, agree_ex z (nth n D no_pair) e x ->
  gncount N.eq_dec N.eq_dec (fun n => lex_positions (nth n D no_pair)) (fun n => lex_key (nth n D no_pair)) (lval D) n x (s, t) = lex_cnt (nth n D no_pair) e s t.
Proof.
  intros D z n x e s t (A & _ & _). set (p := nth n D no_pair) in *. unfold gncount, gnocc, lex_cnt. fold p. rewrite HmmFwdProofs.sumf_filter. unfold lex_positions. rewrite sumf_nested, extend_len, <- sumf_scal.
  apply sumf_ext. intros j Hj. apply in_seq in Hj. rewrite sum_shift, <- sumf_scal. apply sumf_ext. intros i Hi. apply in_seq in Hi. unfold lex_key. cbn [fst snd].
  pose proof (word_ok p (ltac:(lia)) (S i) ltac:(apply in_seq; lia)) as Wo. replace (S i - 1)%nat with i in Wo by lia. change NULL_WORD with 0%N in Wo. rewrite Wo.
  unfold lval. fold p. rewrite A by lia.
  destruct (pd N.eq_dec N.eq_dec (state_word (src p) (S i), nth j (trg p) 0%N) (s, t)) as [Q|Q].
  - inversion Q; subst. rewrite !N.eqb_refl. cbn [andb]. lra.
  - destruct (N.eqb_spec (state_word (src p) (S i)) s); [|cbn [andb]; lra]. destruct (N.eqb_spec (nth j (trg p) 0%N) t); [congruence|cbn [andb]; lra].
Qed.
Lemma trans_cnt_ok : forall D z n x e row m col, ~ In NULL_WORD (src (nth n D no_pair)) -> husable (nth n D no_pair) -> agree_ex z (nth n D no_pair) e x ->
  gncount hposdec Nat.eq_dec (fun n => alig_positions z (nth n D no_pair)) (fun n => alig_key z (nth n D no_pair)) (aval D) n x ((row, m), col) = trans_cnt z (nth n D no_pair) e row m col.
Proof.
  intros D z n x e row m col HN [[U1 _] [U2 _]] (_ & B & C). set (p := nth n D no_pair) in *. unfold gncount, gnocc, trans_cnt. fold p. rewrite HmmFwdProofs.sumf_filter.
  pose proof (counted_range z _ U1) as CR. unfold alig_positions. rewrite alig_len, alig_slen by exact HN. rewrite sumf_flat_map. set (N2 := (counted z (length (src p)))) in *.
  set (g := fun q : nat * nat * nat => aval D n x q * (if if pd hposdec Nat.eq_dec (alig_key z p q) (row, m, col) then true else false then 1 else 0)).
  assert (G : forall j i ip, g (j, i, ip) = if (Nat.eqb ip row && Nat.eqb (length (src p)) m && Nat.eqb (S i) col)%bool then weight p * exp (alig_val x (j, i, ip)) else 0).
  { intros j i ip. unfold g, aval, alig_key. fold p. rewrite alig_slen by exact HN. destruct (pd hposdec Nat.eq_dec (ip, length (src p), S i) (row, m, col)) as [Q|Q].
    - inversion Q; subst. rewrite !Nat.eqb_refl. cbn [andb]. lra.
    - destruct (Nat.eqb_spec ip row), (Nat.eqb_spec (length (src p)) m), (Nat.eqb_spec (S i) col); cbn [andb]; try lra. exfalso. apply Q. congruence. }
  assert (Sj : forall j, sumf g (flat_map (fun i => if Nat.eqb j 0 then [(j, i, 0%nat)] else map (fun ip => (j, i, ip)) (filter (fun ip => isValidAlig ip (length (src p)) (S i)) (seq 1 N2))) (seq 0 N2))
     = sumf (fun i => if Nat.eqb j 0 then g (j, i, 0%nat) else sumf (fun ip => g (j, i, ip)) (filter (fun ip => isValidAlig ip (length (src p)) (S i)) (seq 1 N2))) (seq 0 N2)).
  { intros j. rewrite sumf_flat_map. apply sumf_ext. intros i _. destruct (Nat.eqb j 0); [cbn [sumf]; lra|apply sumf_map]. }
  rewrite (sumf_ext _ _ _ (fun j _ => Sj j)). clear Sj. change (fun q : nat * nat * nat => aval D n x q * (if if pd hposdec Nat.eq_dec (alig_key z p q) (row, m, col) then true else false then 1 else 0)) with g.
  destruct (Nat.eqb_spec m (length (src p))) as [->|Nm].
  2:{ cbn [andb]. apply sumf_zero. intros j _. apply sumf_zero. intros i _. destruct (Nat.eqb j 0); [|apply sumf_zero; intros ip _]; rewrite G; destruct (Nat.eqb_spec (length (src p)) m); try congruence; rewrite andb_false_r; reflexivity. }
  fold N2. cbn [andb]. destruct (Nat.leb_spec row N2) as [R1|R1]; cbn [andb].
  2:{ apply sumf_zero. intros j _. apply sumf_zero. intros i _. destruct (Nat.eqb j 0); [|apply sumf_zero; intros ip Hip; apply filter_In in Hip as [Hip _]; apply in_seq in Hip]; rewrite G.
      - destruct (Nat.eqb_spec 0 row); [lia|reflexivity].
      - destruct (Nat.eqb_spec ip row); [lia|reflexivity]. }
  destruct (Nat.leb_spec 1 col) as [C1|C1]; cbn [andb].
  2:{ apply sumf_zero. intros j _. apply sumf_zero. intros i _. destruct (Nat.eqb j 0); [|apply sumf_zero; intros ip _]; rewrite G; destruct (Nat.eqb_spec (S i) col); try lia; rewrite andb_false_r; reflexivity. }
  destruct (Nat.leb_spec col N2) as [C2|C2].
  2:{ apply sumf_zero. intros j _. apply sumf_zero. intros i Hi. apply in_seq in Hi. destruct (Nat.eqb j 0); [|apply sumf_zero; intros ip _]; rewrite G; destruct (Nat.eqb_spec (S i) col); try lia; rewrite andb_false_r; reflexivity. }
  assert (Si : forall j, sumf (fun i => if Nat.eqb j 0 then g (j, i, 0%nat) else sumf (fun ip => g (j, i, ip)) (filter (fun ip => isValidAlig ip (length (src p)) (S i)) (seq 1 N2))) (seq 0 N2)
     = if Nat.eqb j 0 then (if Nat.eqb row 0 then weight p * exp (alig_val x (0, col - 1, 0)%nat) else 0)
       else if Nat.eqb row 0 then 0 else if in_dec Nat.eq_dec col (dests (length (src p)) row) then weight p * exp (alig_val x (j, col - 1, row)%nat) else 0).
  { intros j. rewrite (sumf_one _ _ (col - 1)%nat (seq_NoDup _ _)); [|apply in_seq; lia|].
    - replace (S (col - 1)) with col by lia. destruct (Nat.eqb_spec j 0) as [->|Nj].
      + rewrite G. rewrite Nat.eqb_refl. replace (S (col - 1)) with col by lia. rewrite Nat.eqb_refl, !andb_true_r. rewrite Nat.eqb_sym. reflexivity.
      + destruct (Nat.eqb_spec row 0) as [->|Nr].
        * apply sumf_zero. intros ip Hip. apply filter_In in Hip as [Hip _]. apply in_seq in Hip. rewrite G. destruct (Nat.eqb_spec ip 0); [lia|reflexivity].
        * destruct (in_dec Nat.eq_dec col (dests (length (src p)) row)) as [Dd|Dd].
          -- rewrite (sumf_one _ _ row (nodup_filter _ _ (seq_NoDup _ _))).
             ++ rewrite G, !Nat.eqb_refl. replace (S (col - 1)) with col by lia. rewrite Nat.eqb_refl. reflexivity.
             ++ apply filter_In. split; [apply in_seq; lia|]. apply valid_allowed; [lia|lia|]. apply in_dests in Dd; [exact Dd|lia|lia].
             ++ intros ip _ Nip. rewrite G. destruct (Nat.eqb_spec ip row); [contradiction|reflexivity].
          -- apply sumf_zero. intros ip Hip. apply filter_In in Hip as [Hip Hv]. rewrite G. destruct (Nat.eqb_spec ip row) as [->|]; [|reflexivity]. exfalso. apply Dd. apply in_dests; [lia|lia|]. apply valid_allowed; [lia|lia|exact Hv].
    - intros i Hi Ni. destruct (Nat.eqb j 0); [|apply sumf_zero; intros ip _]; rewrite G; destruct (Nat.eqb_spec (S i) col); try lia; rewrite andb_false_r; reflexivity. }
  rewrite (sumf_ext _ _ _ (fun j _ => Si j)). destruct (length (trg p)) as [|tl] eqn:Et; [lia|]. cbn [seq sumf Nat.eqb]. rewrite Nat.sub_succ, Nat.sub_0_r. destruct (Nat.eqb_spec row 0) as [->|Nr].
  - rewrite B by lia. replace (S (col - 1)) with col by lia. rewrite sumf_zero; [lra|]. intros j Hj. apply in_seq in Hj. destruct (Nat.eqb_spec j 0); [lia|reflexivity].
  - rewrite sum_shift. rewrite Rplus_0_l. destruct (in_dec Nat.eq_dec col (dests (length (src p)) row)) as [Dd|Dd].
    + rewrite <- sumf_scal. apply sumf_ext. intros j Hj. apply in_seq in Hj. cbn [Nat.eqb]. rewrite C by lia. replace (S (col - 1)) with col by lia. reflexivity.
    + rewrite sumf_zero; [lra|]. intros j _. reflexivity.
Qed.
(** ---- what the queries see *)
Section VIEW.
Context {K1 K2 XE PO : Type}.
Variable d1 : forall a b : K1, {a = b} + {a <> b}.
Variable d2 : forall a b : K2, {a = b} + {a <> b}.
Variable len : nat.
Variable pos : nat -> list PO.
Variable kf : nat -> PO -> K1 * K2.
Variable val : nat -> XE -> PO -> R.
Lemma log_count_exp : forall r, log_count (exp r) = Some r.
Proof. intros r. unfold log_count. destruct (Rlt_dec 0 (exp r)) as [_|H]; [rewrite ln_exp; reflexivity|exfalso; apply H, exp_pos]. Qed.
Lemma log_count_0 : log_count 0 = None.
Proof. unfold log_count. destruct (Rlt_dec 0 0); [lra|reflexivity]. Qed.
Lemma numer_log : forall T ex s t, gholds d1 d2 len pos kf val T ex -> real_of (getNumer d1 d2 T s t) = log_count (gncounts d1 d2 len pos kf val ex (s, t)).
Proof.
  intros T ex s t H. pose proof (g_num _ _ _ _ _ _ _ _ H s t) as Q. unfold numv in Q. destruct (getNumer d1 d2 T s t) as [l|] eqn:E.
  - destruct (ti_num _ _ T (g_inv _ _ _ _ _ _ _ _ H) _ _ _ E) as [r ->]. cbn in Q |- *. rewrite <- Q, log_count_exp. reflexivity.
  - rewrite <- Q, log_count_0. reflexivity.
Qed.
Lemma denom_log : forall T ex s ts, gholds d1 d2 len pos kf val T ex -> NoDup ts -> (forall n t, ex n <> None -> gnocc d1 d2 pos kf n (s, t) <> [] -> In t ts) ->
  real_of (getDenom d1 T s) = log_count (sumf (fun t => gncounts d1 d2 len pos kf val ex (s, t)) ts).
Proof.
  intros T ex s ts H ND C. pose proof (g_inv _ _ _ _ _ _ _ _ H) as I. pose proof (ti_sum _ _ T I s) as Q.
  rewrite (by_target d1 d2 s ts (ndn T) (ti_wf _ _ T I) ND) in Q.
  2:{ intros t G. apply (g_has _ _ _ _ _ _ _ _ H) in G as (n & A & B). eauto. }
  change (denv d1 T s = sumf (numv d1 d2 T s) ts) in Q. rewrite (sumf_ext _ (fun t => gncounts d1 d2 len pos kf val ex (s, t))) in Q by (intros; apply (g_num _ _ _ _ _ _ _ _ H)).
  unfold denv in Q. destruct (getDenom d1 T s) as [l|] eqn:E.
  - destruct (ti_den _ _ T I _ _ E) as [r ->]. cbn in Q |- *. rewrite <- Q, log_count_exp. reflexivity.
  - rewrite <- Q, log_count_0. reflexivity.
Qed.
End VIEW.
Definition agree (D : list pair) (z : option R) (sx : nat -> option expect) (old : nat -> option hexp) : Prop :=
  forall n, match sx n, old n with None, None => True | Some e, Some v => agree_ex z (nth n D no_pair) e v | _, _ => False end.
Notation lholds D := (gholds N.eq_dec N.eq_dec (length D) (fun n => lex_positions (nth n D no_pair)) (fun n => lex_key (nth n D no_pair)) (lval D)).
Notation aholds D z := (gholds hposdec Nat.eq_dec (length D) (fun n => alig_positions z (nth n D no_pair)) (fun n => alig_key z (nth n D no_pair)) (aval D)).
Section V2.
Variable D : list pair.
Variable z : option R.
Hypothesis Dn : forall p, In p D -> ~ In NULL_WORD (src p).
Variable sx : nat -> option expect.
Variable old : nat -> option hexp.
Hypothesis Ag : agree D z sx old.
Hypothesis Fi : old_fine D z old.
Lemma lex_total_ok : forall s t, gncounts N.eq_dec N.eq_dec (length D) (fun n => lex_positions (nth n D no_pair)) (fun n => lex_key (nth n D no_pair)) (lval D) old (s, t) = lex_total (D, sx) s t.
Proof.
  intros s t. unfold gncounts, lex_total, over. cbn [fst snd]. apply sumf_ext. intros n _. specialize (Ag n). destruct (sx n) as [e|], (old n) as [v|]; try contradiction; [|reflexivity].
  apply (lex_cnt_ok D z). exact Ag.
Qed.
Lemma trans_total_ok : forall row m col, gncounts hposdec Nat.eq_dec (length D) (fun n => alig_positions z (nth n D no_pair)) (fun n => alig_key z (nth n D no_pair)) (aval D) old ((row, m), col) = trans_total z (D, sx) row m col.
Proof.
  intros row m col. unfold gncounts, trans_total, over. cbn [fst snd]. apply sumf_ext. intros n _. pose proof (Ag n) as G. destruct (old n) as [v|] eqn:O; destruct (sx n) as [e|]; try contradiction; [|reflexivity].
  destruct (Fi n v O) as (L & U & _). apply trans_cnt_ok; [apply Dn, nth_In, L|apply husable_ok; exact U|exact G].
Qed.
Lemma gnocc_in : forall {K1 K2 PO} (d1 : forall a b : K1, {a = b} + {a <> b}) (d2 : forall a b : K2, {a = b} + {a <> b}) (pos : nat -> list PO) kf n k, gnocc d1 d2 pos kf n k <> [] -> exists q, In q (pos n) /\ kf n q = k.
Proof.
  intros K1 K2 PO d1 d2 pos kf n k H. unfold gnocc in H. destruct (filter _ (pos n)) as [|q l] eqn:E; [congruence|]. assert (I : In q (q :: l)) by (left; reflexivity). rewrite <- E in I.
  apply filter_In in I as [I1 I2]. exists q. split; [exact I1|]. destruct (pd d1 d2 (kf n q) k); [assumption|discriminate].
Qed.
Lemma view_params : forall E v l a, lholds D (hlex E) old -> aholds D z (halig E) old -> P_of (hmm_view (hlex E) (halig E) v l a z) = params_of z (D, sx).
Proof.
  intros E v l a HL HA. unfold P_of, params_of, hmm_view. cbn [lexNumer lexDenom aligNumer aligDenom fst snd]. f_equal.
  - extensionality s. extensionality t. rewrite (numer_log _ _ _ _ _ _ _ _ s t HL), lex_total_ok. reflexivity.
  - extensionality s. rewrite (denom_log _ _ _ _ _ _ _ _ s (nodup N.eq_dec (flat_map trg D)) HL (NoDup_nodup _ _)).
    + f_equal. apply sumf_ext. intros t _. apply lex_total_ok.
    + intros n t O Q. apply gnocc_in in Q as ([j i] & Q & E2). apply in_lpos in Q as [Q _]. cbn in Q. inversion E2; subst. apply nodup_In, in_flat_map. destruct (old n) as [x|] eqn:O'; [|congruence].
      exists (nth n D no_pair). split; [apply nth_In; apply (Fi n x O')|apply nth_In; exact Q].
  - extensionality row. extensionality m. extensionality col. rewrite (numer_log _ _ _ _ _ _ _ _ _ _ HA), trans_total_ok. reflexivity.
  - extensionality row. extensionality m. rewrite (denom_log _ _ _ _ _ _ _ _ _ (seq 1 (2 * m)) HA (seq_NoDup _ _)).
    + f_equal. apply sumf_ext. intros t _. apply trans_total_ok.
    + intros n t O Q. apply gnocc_in in Q as ([[j i] ip] & Q & E2). destruct (old n) as [x|] eqn:O'; [|congruence]. destruct (Fi n x O') as (Ln & U & _). apply husable_ok in U as [[U _] _].
      pose proof (Dn _ (nth_In D no_pair Ln)) as HN. apply (in_apos z _ j i ip HN U) in Q as (_ & Q & _). unfold alig_key in E2. rewrite (alig_slen z _ HN) in E2. inversion E2; subst.
      pose proof (counted_range z _ U). apply in_seq. lia.
Qed.
End V2.
(** ---- one more pair in the corpus *)
Lemma gholds_ext : forall {K1 K2 XE PO} (d1 : forall a b : K1, {a = b} + {a <> b}) (d2 : forall a b : K2, {a = b} + {a <> b}) len len' (pos pos' : nat -> list PO) kf kf' (val val' : nat -> XE -> PO -> R) T ex,
  (len <= len')%nat -> (forall n, ex n <> None -> (n < len)%nat) -> (forall n, (n < len)%nat -> pos n = pos' n /\ kf n = kf' n /\ val n = val' n) ->
  gholds d1 d2 len pos kf val T ex -> gholds d1 d2 len' pos' kf' val' T ex.
Proof.
  intros K1 K2 XE PO d1 d2 len len' pos pos' kf kf' val val' T ex HL Hx HE [I Hn Hh].
  assert (Oc : forall n k, (n < len)%nat -> gnocc d1 d2 pos kf n k = gnocc d1 d2 pos' kf' n k).
  { intros n k L. destruct (HE n L) as (A & B & _). unfold gnocc. rewrite A, B. reflexivity. }
  constructor; [exact I| |].
  - intros s t. rewrite Hn. unfold gncounts. replace len' with (len + (len' - len))%nat by lia. rewrite seq_app, sumf_app. rewrite (sumf_zero _ (seq (0 + len) _)).
    + rewrite Rplus_0_r. apply sumf_ext. intros n L. apply in_seq in L. destruct (ex n); [|reflexivity]. unfold gncount. rewrite <- Oc by lia. destruct (HE n ltac:(lia)) as (_ & _ & ->). reflexivity.
    + intros n L. apply in_seq in L. destruct (ex n) eqn:E; [|reflexivity]. assert (n < len)%nat by (apply Hx; congruence). lia.
  - intros s t. rewrite Hh. split; intros (n & A & B); exists n; (split; [exact A|]); pose proof (Hx n A) as L; [rewrite <- Oc by exact L|rewrite Oc by exact L]; exact B.
Qed.
Section SESSION.
Variable voc : list pair -> nat.
Variables lamL lamA : R.
Variable z : option R.
Hypothesis HLam : 0 < lamL < 1.
Hypothesis HA : 0 < lamA < 1.
Hypothesis Hvoc : forall D, (0 < voc D)%nat.
Hypothesis Hz : match z with Some p => 0 < p < 1 | None => True end.
Definition fine_corpus (D : list pair) : Prop := (forall p, In p D -> float_weight p) /\ (forall p, In p D -> ~ In NULL_WORD (src p)).
Record hinv (D : list pair) (E : hem) (x : hiem) : Prop := {
  hi_D : fst x = D; hi_k : hkeep E = true; hi_c : fine_corpus D; hi_f : old_fine D z (hold E); hi_l : lholds D (hlex E) (hold E); hi_a : aholds D z (halig E) (hold E); hi_g : agree D z (snd x) (hold E) }.
Lemma smok : forall D E, smoothing_ok (hview voc lamL lamA z D E).
Proof. intros D E. unfold smoothing_ok, hview, hmm_view. cbn. auto. Qed.
Lemma hinv_params : forall D E x, hinv D E x -> P_of (hview voc lamL lamA z D E) = params_of z x.
Proof. intros D E [D' sx] H. pose proof (hi_D _ _ _ H) as Q. cbn in Q. subst D'. apply (view_params D z (proj2 (hi_c _ _ _ H)) sx (hold E)); apply H. Qed.
Lemma hinv_add : forall D E x p, hinv D E x -> float_weight p -> ~ In 0%N (src p) -> hinv (D ++ [p]) E (fst x ++ [p], snd x).
Proof.
  intros D E x p [A B [C1 C2] F L Al G] W HN. assert (Nx : forall n, hold E n <> None -> (n < length D)%nat) by (intros n Q; destruct (hold E n) eqn:O; [apply (F n h O)|congruence]).
  assert (Nt : forall n, (n < length D)%nat -> nth n (D ++ [p]) no_pair = nth n D no_pair) by (intros; apply app_nth1; assumption).
  constructor; cbn [fst snd].
  - rewrite A. reflexivity.
  - exact B.
  - split; intros q Q; apply in_app_iff in Q as [Q|[<-|[]]]; auto.
  - intros n v O. destruct (F n v O) as (X1 & X2 & X3). split; [rewrite app_length; lia|]. unfold us, hgood in *. rewrite Nt by exact X1. auto.
  - eapply gholds_ext; [| |  |exact L]; [rewrite app_length; lia|exact Nx|]. intros n H. cbn beta. rewrite Nt by exact H. repeat split. unfold lval. rewrite Nt by exact H. reflexivity.
  - eapply gholds_ext; [| |  |exact Al]; [rewrite app_length; lia|exact Nx|]. intros n H. cbn beta. rewrite Nt by exact H. repeat split. unfold aval. rewrite Nt by exact H. reflexivity.
  - intros n. specialize (G n). pose proof (Nx n) as Q. destruct (snd x n), (hold E n); try contradiction; [|exact Logic.I]. rewrite Nt by (apply Q; discriminate). exact G.
Qed.
Lemma calc_run : forall D range E, NoDup range -> let M := hview voc lamL lamA z D E in exists E',
  calcNewLocalSuffStats_h voc lamL lamA z D range E = (E', (fold_left (fill N.eq_dec N.eq_dec) (flat_map (levs D (hold E) (hnew D M)) range) [], fold_left (fill hposdec Nat.eq_dec) (flat_map (aevs D z (hold E) (hnew D M)) range) [])) /\
  hlex E' = hlex E /\ halig E' = halig E /\ hkeep E' = hkeep E /\ (forall n, hold E' n = if hkeep E then gex' (us D) (hold E) (hnew D M) range n else None).
Proof.
  intros D range E ND M. destruct (pass_run D z M range E ([], []) ND) as (R1 & R2 & R3 & R4 & R5). eexists. split; [|split; [exact R2|split; [exact R3|split; [exact R4|exact R5]]]].
  cbn [fst snd] in R1. rewrite <- R1. apply surjective_pairing.
Qed.
Lemma hinv_train : forall D E x range, hinv D E x -> NoDup range -> (forall n, In n range -> (n < length D)%nat) ->
  hinv D (trainSentPairRange_h voc lamL lamA z D range E) (hiem_train voc lamL lamA z range x).
Proof.
  intros D E x range H ND Hr. pose proof (hinv_params D E x H) as HP. destruct H as [A B [C1 C2] F L Al G]. unfold trainSentPairRange_h.
  destruct (calc_run D range E ND) as (E' & -> & R2 & R3 & R4 & R5). set (M := hview voc lamL lamA z D E) in *. cbn [fst snd].
  assert (Hh : forall n, hold {| hlex := nd_update N.eq_dec N.eq_dec (hlex E') (fold_left (fill N.eq_dec N.eq_dec) (flat_map (levs D (hold E) (hnew D M)) range) []); halig := updateParsAlig_h (halig E') (fold_left (fill hposdec Nat.eq_dec) (flat_map (aevs D z (hold E) (hnew D M)) range) []); hkeep := hkeep E'; hstore := hstore E' |} n = gex' (us D) (hold E) (hnew D M) range n).
  { intros n. specialize (R5 n). rewrite B in R5. exact R5. }
  match goal with |- hinv D ?X _ => set (E2 := X) in * end. assert (Ho : hold E2 = gex' (us D) (hold E) (hnew D M) range) by (extensionality n; apply Hh).
  constructor.
  - exact A.
  - cbn. congruence.
  - split; assumption.
  - rewrite Ho. intros n v O. unfold gex' in O. destruct (in_dec Nat.eq_dec n range) as [I|I]; cbn [andb] in O; [|exact (F n v O)]. destruct (us D n) eqn:U; [|rewrite <- U; exact (F n v O)].
    injection O as <-. split; [apply Hr, I|]. split; [reflexivity|]. apply (new_fine D z M); [reflexivity|exact C2|apply Hr, I|exact U].
  - rewrite Ho. cbn [hlex E2]. rewrite R2. apply (lex_pass D z C1 M eq_refl C2); assumption.
  - rewrite Ho. cbn [halig E2]. rewrite R3. apply (alig_pass D z C1 M eq_refl C2); assumption.
  - rewrite Ho. intros n. unfold hiem_train, gex'. cbn [snd]. rewrite A. fold (us D n). specialize (G n). destruct (in_dec Nat.eq_dec n range) as [I|I]; cbn [andb]; [|exact G]. destruct (us D n) eqn:U; [|exact G].
    unfold hnew. rewrite <- HP. apply (estep_agree M); [apply smok|apply C2, nth_In, Hr, I|apply husable_ok; exact U].
Qed.
Lemma hinv_new : hinv [] hem_new hiem_new.
Proof.
  constructor; try reflexivity.
  - split; intros p [].
  - intros n v O. discriminate.
  - apply gholds_empty. reflexivity.
  - apply gholds_empty. reflexivity.
  - intros n. exact Logic.I.
Qed.
Lemma session_inv : forall ops D E x, hinv D E x -> hlegal (length D) ops ->
  hinv (fst (fold_left (hem_op voc lamL lamA z) ops (D, E))) (snd (fold_left (hem_op voc lamL lamA z) ops (D, E))) (fold_left (hiem_op voc lamL lamA z) ops x).
Proof.
  induction ops as [|[p|b e] ops IH]; intros D E x H L; [exact H| |]; cbn [fold_left].
  - destruct L as (W & HN & L). apply IH; [apply hinv_add; assumption|]. cbn [fst snd]. rewrite app_length, Nat.add_1_r. exact L.
  - destruct L as (W & L). apply IH; [|exact L]. cbn [fst snd]. unfold hiem_op. apply hinv_train; [exact H|apply seq_NoDup|]. intros n I. apply in_seq in I. lia.
Qed.
(** ---- batch training *)
Lemma batch_params : forall D E range, fine_corpus D -> NoDup range -> (forall n, In n range -> (n < length D)%nat) ->
  let M := hview voc lamL lamA z D E in
  P_of (hview voc lamL lamA z D (efficientBatchTrainingForRange_h voc lamL lamA z D range E))
  = params_of z (D, fun n => if (if in_dec Nat.eq_dec n range then true else false) && husableb (nth n D no_pair) then Some (expectations (voc D) lamL lamA z (P_of M) (nth n D no_pair)) else None).
Proof.
  intros D E range [C1 C2] ND Hr M. unfold efficientBatchTrainingForRange_h. set (E0 := {| hlex := hlex E; halig := halig E; hkeep := false; hstore := [] |}).
  destruct (calc_run D range E0 ND) as (E' & -> & R2 & R3 & R4 & R5). change (hview voc lamL lamA z D E0) with M in *. cbn [fst snd].
  set (old := fun _ : nat => @None hexp). change (hold E0) with old.
  assert (F0 : old_fine D z old) by (intros n v O; discriminate).
  assert (Fn : old_fine D z (gex' (us D) old (hnew D M) range)).
  { intros n v O. unfold gex', old in O. destruct (in_dec Nat.eq_dec n range) as [I|I]; cbn [andb] in O; [|discriminate]. destruct (us D n) eqn:U; [|discriminate].
    injection O as <-. split; [apply Hr, I|]. split; [reflexivity|]. apply (new_fine D z M); [reflexivity|exact C2|apply Hr, I|exact U]. }
  apply (view_params D z C2 _ (gex' (us D) old (hnew D M) range)).
  - intros n. unfold gex', old. fold (us D n). destruct (in_dec Nat.eq_dec n range) as [I|I]; cbn [andb]; [|exact Logic.I]. destruct (us D n) eqn:U; [|exact Logic.I].
    apply (estep_agree M); [apply smok|apply C2, nth_In, Hr, I|apply husable_ok; exact U].
  - exact Fn.
  - apply (lex_pass D z C1 M eq_refl C2); [exact F0|apply gholds_empty; reflexivity|exact ND|exact Hr].
  - apply (alig_pass D z C1 M eq_refl C2); [exact F0|apply gholds_empty; reflexivity|exact ND|exact Hr].
Qed.
End SESSION.
