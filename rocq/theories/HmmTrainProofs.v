From Coq Require Import Reals NArith Arith List Bool Lra Lia FunctionalExtensionality.
From Verif Require Import AMap RSums MathModel MathProofs LogNum LogNumProofs Ibm1Spec Ibm1Model Ibm1TrainProofs HmmSpec HmmModel HmmVitProofs HmmCacheProofs HmmFwdProofs HmmProofs HmmPostProofs Ibm2Model NdProofs NdGen HmmTrainModel HmmTrainSpec HmmTransProofs HmmEstepProofs.
Import ListNotations.
Open Scope R_scope.
Lemma husable_ok : forall p, husableb p = true <-> husable p.
Proof. intros p. unfold husableb, husable. rewrite !andb_true_iff, !Nat.leb_le. tauto. Qed.
Lemma len_test : forall p, (HmmModel.sentenceLengthIsOk (src p) && HmmModel.sentenceLengthIsOk (trg p))%bool = husableb p.
Proof.
  intros p. apply eq_true_iff_eq. rewrite andb_true_iff, !HmmProofs.len_ok, husable_ok. unfold husable. tauto.
Qed.
(** ---- updateParsAlig is the same update *)
Lemma sublog_test : forall d n, d <> NaN -> n <> NaN -> lgsublog d n = (if lgneqb n LZ then lgsublog d n else d).
Proof. intros d n Hd Hn. destruct n as [| |x]; cbn [lgneqb]; try congruence; destruct d; try reflexivity; congruence. Qed.
Lemma upd_one_same : forall T e, tab_inv hposdec Nat.eq_dec T -> upd_alig_one T e = nd_update_one hposdec Nat.eq_dec T e.
Proof.
  intros T [[s t] [c n]] I. unfold upd_alig_one, nd_update_one. destruct (lgneqb c n); [|reflexivity]. cbv zeta. f_equal. f_equal. apply sublog_test.
  - destruct (getDenom hposdec T s) eqn:E; [|discriminate]. destruct (ti_den _ _ T I _ _ E) as [r ->]. discriminate.
  - destruct (getNumer hposdec Nat.eq_dec T s t) eqn:E; [|discriminate]. destruct (ti_num _ _ T I _ _ _ E) as [r ->]. discriminate.
Qed.
Lemma upd_same : forall aux T, awf aux -> tab_inv hposdec Nat.eq_dec T ->
  (forall k c n, In (k, (c, n)) aux -> c <> NaN /\ (exists r, n = Fin r) /\ lgexp c <= numv hposdec Nat.eq_dec T (fst k) (snd k)) ->
  updateParsAlig_h T aux = nd_update hposdec Nat.eq_dec T aux.
Proof.
  induction aux as [|[[s t] [c n]] aux IH]; intros T W I H; [reflexivity|]. unfold updateParsAlig_h, nd_update in *. cbn [fold_left]. rewrite upd_one_same by exact I.
  destruct (H (s, t) c n (or_introl eq_refl)) as (Hc & Hn & Hle). cbn [fst snd] in Hle. destruct (update_one_inv hposdec Nat.eq_dec T s t c n I Hc Hn Hle) as (I1 & V1 & O1 & _).
  apply IH; [inversion W; assumption|exact I1|]. intros k c' n' Hk. destruct (H k c' n' (or_intror Hk)) as (A & B & C). split; [exact A|]. split; [exact B|].
  unfold numv. rewrite O1; [exact C|]. destruct k; cbn. intros E. inversion W; subst. apply H2. cbn. rewrite <- E. apply (in_map fst) in Hk. exact Hk.
Qed.
Section D.
Variable D : list pair.
Variable z : option R.
Hypothesis Dw : forall p, In p D -> float_weight p.
Notation pr n := (nth n D no_pair).
Definition us (n : nat) : bool := husableb (pr n).
Definition lval (n : nat) (x : hexp) (q : nat * nat) : R := weight (pr n) * exp (lex_val x q).
Definition aval (n : nat) (x : hexp) (q : nat * nat * nat) : R := weight (pr n) * exp (alig_val x q).
Definition hgood (n : nat) (x : hexp) : Prop :=
  (forall q, In q (lex_positions (pr n)) -> - 9 <= lex_val x q) /\ (forall q, In q (alig_positions z (pr n)) -> - 9 <= alig_val x q).
Notation lpos := (fun n => lex_positions (pr n)).
Notation apos_ := (fun n => alig_positions z (pr n)).
Notation lkf := (fun n => lex_key (pr n)).
Notation akf := (fun n => alig_key z (pr n)).
Notation lwl := (fun n x q => weighted_lg (weight (pr n)) (lex_val x q)).
Notation awl := (fun n x q => weighted_lg (weight (pr n)) (alig_val x q)).
Notation lholds := (gholds N.eq_dec N.eq_dec (length D) lpos lkf lval).
Notation aholds := (gholds hposdec Nat.eq_dec (length D) apos_ akf aval).
Lemma w_pos : forall n, (n < length D)%nat -> exp (-104) <= weight (pr n) /\ 0 < weight (pr n).
Proof. intros n H. pose proof (Dw (pr n) (nth_In D no_pair H)) as F. unfold float_weight in F. pose proof (exp_pos (-104)). split; lra. Qed.
Lemma wlg_ok : forall w v, exp (-104) <= w -> - 9 <= v -> (exists r, weighted_lg w v = Fin r) /\ lgexp (weighted_lg w v) = w * exp v.
Proof.
  intros w v Hw Hv. assert (0 < w) by (pose proof (exp_pos (-104)); lra). assert (L : -104 <= ln w).
  { rewrite <- (ln_exp (-104)). destruct Hw as [Hw|Hw]; [left; apply ln_increasing; [apply exp_pos|exact Hw]|rewrite Hw; lra]. }
  unfold weighted_lg, SMALL_LG_NUM. destruct (Rlt_dec (ln w + v) (-99999)); [lra|]. split; [eexists; reflexivity|]. cbn. rewrite exp_plus, exp_ln by lra. reflexivity.
Qed.
Lemma lval_pos : forall n x q, (n < length D)%nat -> us n = true -> 0 < lval n x q.
Proof. intros n x q H _. destruct (w_pos n H). apply Rmult_lt_0_compat; [assumption|apply exp_pos]. Qed.
Lemma aval_pos : forall n x q, (n < length D)%nat -> us n = true -> 0 < aval n x q.
Proof. intros n x q H _. destruct (w_pos n H). apply Rmult_lt_0_compat; [assumption|apply exp_pos]. Qed.
Lemma lwl_ok : forall n x q, (n < length D)%nat -> us n = true -> hgood n x -> In q (lpos n) -> (exists r, lwl n x q = Fin r) /\ lgexp (lwl n x q) = lval n x q.
Proof. intros n x q H _ [G _] Q. apply wlg_ok; [apply w_pos, H|apply G, Q]. Qed.
Lemma awl_ok : forall n x q, (n < length D)%nat -> us n = true -> hgood n x -> In q (apos_ n) -> (exists r, awl n x q = Fin r) /\ lgexp (awl n x q) = aval n x q.
Proof. intros n x q H _ [_ G] Q. apply wlg_ok; [apply w_pos, H|apply G, Q]. Qed.
(** ---- positions *)
Lemma in_lpos : forall p q, In q (lex_positions p) <-> (fst q < length (trg p))%nat /\ (snd q < 2 * length (src p))%nat.
Proof.
  intros p [j i]. unfold lex_positions. rewrite extend_len, in_flat_map. split.
  - intros (j' & Hj & Hi). apply in_map_iff in Hi as (i' & E & Hi). inversion E; subst. apply in_seq in Hj. apply in_seq in Hi. cbn. lia.
  - cbn. intros [A B]. exists j. split; [apply in_seq; lia|]. apply in_map_iff. exists i. split; [reflexivity|apply in_seq; lia].
Qed.
Lemma alig_len : forall p, length (extendWithNullWordAlig z (src p)) = counted z (length (src p)).
Proof. intros p. unfold extendWithNullWordAlig, counted. destruct z; [reflexivity|apply extend_len]. Qed.
Lemma alig_slen : forall p, ~ In NULL_WORD (src p) -> getSrcLen (extendWithNullWordAlig z (src p)) = length (src p).
Proof.
  intros p HN. unfold extendWithNullWordAlig. destruct z; [|apply srcLen_extend; exact HN]. unfold getSrcLen. f_equal. induction (src p) as [|w l IH]; [reflexivity|]. cbn [filter].
  destruct (N.eqb_spec w NULL_WORD) as [->|_]; [exfalso; apply HN; left; reflexivity|]. cbn [negb]. f_equal. apply IH. intros H; apply HN; right; exact H.
Qed.
Lemma counted_range : forall n, (1 <= n)%nat -> (1 <= counted z n <= 2 * n)%nat.
Proof. intros n H. unfold counted. destruct z; lia. Qed.
Lemma in_apos : forall p j i ip, ~ In NULL_WORD (src p) -> (1 <= length (src p))%nat ->
  (In (j, i, ip) (alig_positions z p) <-> (j < length (trg p))%nat /\ (i < counted z (length (src p)))%nat /\
     ((j = 0%nat /\ ip = 0%nat) \/ ((1 <= j)%nat /\ (1 <= ip <= counted z (length (src p)))%nat /\ In (S i) (dests (length (src p)) ip)))).
Proof.
  intros p j i ip HN Hs. pose proof (counted_range _ Hs) as CR. unfold alig_positions. rewrite alig_len, alig_slen by exact HN. rewrite in_flat_map.
  assert (V : forall ip, (1 <= ip <= counted z (length (src p)))%nat -> (i < counted z (length (src p)))%nat -> (isValidAlig ip (length (src p)) (S i) = true <-> In (S i) (dests (length (src p)) ip))).
  { intros k Hk Hi. rewrite in_dests by lia. apply valid_allowed; lia. }
  split.
  - intros (j' & Hj & Hi). apply in_flat_map in Hi as (i' & Hi & Hq). apply in_seq in Hj. apply in_seq in Hi. destruct (Nat.eqb_spec j' 0).
    + destruct Hq as [E|[]]. inversion E; subst. split; [lia|]. split; [lia|]. left; split; reflexivity.
    + apply in_map_iff in Hq as (k & E & Hk). inversion E; subst. apply filter_In in Hk as [Hk Hv]. apply in_seq in Hk. split; [lia|]. split; [lia|]. right. split; [lia|]. split; [lia|]. apply V; [lia|lia|exact Hv].
  - intros (A & B & C). exists j. split; [apply in_seq; lia|]. apply in_flat_map. exists i. split; [apply in_seq; lia|]. destruct C as [[-> ->]|(C1 & C2 & C3)].
    + left. reflexivity.
    + destruct (Nat.eqb_spec j 0); [lia|]. apply in_map_iff. exists ip. split; [reflexivity|]. apply filter_In. split; [apply in_seq; lia|]. apply V; [lia|lia|exact C3].
Qed.
Lemma clamped_ln : forall v x, exp v = clamped x -> - 9 <= v.
Proof. intros v x H. pose proof (clamped_low x) as L. rewrite <- H in L. destruct (Rle_dec (-9) v); [assumption|]. exfalso. assert (exp v < exp (-9)) by (apply exp_increasing; lra). lra. Qed.
Lemma good_new : forall M n, p0 M = z -> (n < length D)%nat -> us n = true -> ~ In NULL_WORD (src (pr n)) -> hgood n (hstep_e M (pr n)).
Proof.
  intros M n Hz Hn U HN. apply husable_ok in U as [[U1 _] [U2 _]]. split.
  - intros [j i] Hq. apply in_lpos in Hq as [Hj Hi]. cbn in Hj, Hi. pose proof (state_spec M (src (pr n)) (trg (pr n)) HN U1 j (S i) Hj ltac:(lia)) as E.
    replace (S i - 1)%nat with i in E by lia. eapply clamped_ln. exact E.
  - intros [[j i] ip] Hq. apply (in_apos (pr n) j i ip HN U1) in Hq as (Hj & Hi & [[-> ->]|(H1 & H2 & _)]); rewrite <- Hz in *.
    + pose proof (first_spec M (src (pr n)) (trg (pr n)) HN U1 (S i) ltac:(destruct (trg (pr n)); [cbn in U2; lia|discriminate]) ltac:(lia)) as E. replace (S i - 1)%nat with i in E by lia. eapply clamped_ln. exact E.
    + destruct j as [|j]; [lia|]. pose proof (next_spec M (src (pr n)) (trg (pr n)) HN U1 j ip (S i) Hj H2 ltac:(lia)) as E. replace (S i - 1)%nat with i in E by lia. eapply clamped_ln. exact E.
Qed.
(** ---- one pass *)
Variable M : hmm.
Hypothesis Mz : p0 M = z.
Hypothesis Dn : forall p, In p D -> ~ In NULL_WORD (src p).
Definition hnew (n : nat) : hexp := hstep_e M (pr n).
Definition hold (E : hem) (n : nat) : option hexp := if hkeep E then aget Nat.eq_dec n (hstore E) else None.
Definition levs := gevs us lpos lkf lwl.
Definition aevs := gevs us apos_ akf awl.
Lemma levs_fill : forall old n aux, us n = true -> fold_left (fill N.eq_dec N.eq_dec) (levs old hnew n) aux =
  fold_left (fun aux q => add_contrib N.eq_dec N.eq_dec (lex_key (pr n) q) (curr_lg (weight (pr n)) (option_map (fun x => lex_val x q) (old n))) (weighted_lg (weight (pr n)) (lex_val (hnew n) q)) aux) (lex_positions (pr n)) aux.
Proof.
  intros old n aux U. unfold levs, gevs. rewrite U. unfold gevs1. generalize (lex_positions (pr n)) as l. intros l. revert aux. induction l as [|q l IH]; intros aux; [reflexivity|]. cbn [map fold_left].
  rewrite IH. f_equal. unfold gcur, curr_lg. destruct (old n); reflexivity.
Qed.
Lemma aevs_fill : forall old n aux, us n = true -> fold_left (fill hposdec Nat.eq_dec) (aevs old hnew n) aux =
  fold_left (fun aux q => add_contrib hposdec Nat.eq_dec (alig_key z (pr n) q) (curr_lg (weight (pr n)) (option_map (fun x => alig_val x q) (old n))) (weighted_lg (weight (pr n)) (alig_val (hnew n) q)) aux) (alig_positions z (pr n)) aux.
Proof.
  intros old n aux U. unfold aevs, gevs. rewrite U. unfold gevs1. generalize (alig_positions z (pr n)) as l. intros l. revert aux. induction l as [|q l IH]; intros aux; [reflexivity|]. cbn [map fold_left].
  rewrite IH. f_equal. unfold gcur, curr_lg. destruct (old n); reflexivity.
Qed.
Lemma gevs_ext : forall {K1 K2 XE PO} (pos : nat -> list PO) (kf : nat -> PO -> K1 * K2) (wl : nat -> XE -> PO -> lg) o o' nw n, o n = o' n -> gevs us pos kf wl o nw n = gevs us pos kf wl o' nw n.
Proof. intros. unfold gevs. rewrite H. reflexivity. Qed.
Lemma pass_run : forall range E aux, NoDup range -> let R := fold_left (pass_one z D M) range (E, aux) in
  snd R = (fold_left (fill N.eq_dec N.eq_dec) (flat_map (levs (hold E) hnew) range) (fst aux), fold_left (fill hposdec Nat.eq_dec) (flat_map (aevs (hold E) hnew) range) (snd aux)) /\
  hlex (fst R) = hlex E /\ halig (fst R) = halig E /\ hkeep (fst R) = hkeep E /\
  (forall n, hold (fst R) n = if hkeep E then gex' us (hold E) hnew range n else None).
Proof.
  induction range as [|n range IH]; intros E aux ND; cbn [fold_left].
  - cbn. split; [destruct aux; reflexivity|]. repeat split; try reflexivity. intros n. unfold hold, gex'. cbn. destruct (hkeep E); reflexivity.
  - inversion ND as [|? ? Hn ND']; subst. set (st := pass_one z D M (E, aux) n).
    assert (St : snd st = (fold_left (fill N.eq_dec N.eq_dec) (levs (hold E) hnew n) (fst aux), fold_left (fill hposdec Nat.eq_dec) (aevs (hold E) hnew n) (snd aux)) /\
      hlex (fst st) = hlex E /\ halig (fst st) = halig E /\ hkeep (fst st) = hkeep E /\
      (forall m, hold (fst st) m = if hkeep E then (if Nat.eq_dec m n then if us n then Some (hnew n) else hold E m else hold E m) else None)).
    { unfold st, pass_one. cbn [fst snd]. rewrite len_test. fold (us n). destruct (us n) eqn:U.
      - cbn [fst snd hlex halig hkeep]. rewrite levs_fill, aevs_fill by exact U. split; [reflexivity|]. repeat split; try reflexivity. intros m. unfold hold. cbn [hkeep hstore]. destruct (hkeep E); [|reflexivity].
        rewrite aget_aset. destruct (Nat.eq_dec m n); [reflexivity|reflexivity].
      - cbn [fst snd]. split; [unfold levs, aevs, gevs; rewrite U; destruct aux; reflexivity|]. repeat split; try reflexivity. intros m. unfold hold. destruct (hkeep E); [|reflexivity]. destruct (Nat.eq_dec m n); reflexivity. }
    destruct st as [E1 aux1]. cbn [fst snd] in St. destruct St as (A1 & A2 & A3 & A4 & A5). destruct (IH E1 aux1 ND') as (B1 & B2 & B3 & B4 & B5).
    assert (O : forall m, In m range -> hold E1 m = hold E m).
    { intros m Hm. rewrite A5. destruct (hkeep E) eqn:K; [|unfold hold; rewrite K; reflexivity]. destruct (Nat.eq_dec m n); [subst; contradiction|reflexivity]. }
    cbv zeta. split; [|split; [congruence|split; [congruence|split; [congruence|]]]].
    + rewrite B1, A1. cbn [fst snd flat_map]. rewrite !fold_left_app. f_equal; f_equal.
      * clear -O. induction range as [|m r IH]; [reflexivity|]. cbn [flat_map]. rewrite IH by (intros; apply O; right; assumption). f_equal. apply gevs_ext, O. left; reflexivity.
      * clear -O. induction range as [|m r IH]; [reflexivity|]. cbn [flat_map]. rewrite IH by (intros; apply O; right; assumption). f_equal. apply gevs_ext, O. left; reflexivity.
    + intros m. rewrite B5, A4. destruct (hkeep E) eqn:K; [|reflexivity]. unfold gex'. rewrite A5.
      destruct (in_dec Nat.eq_dec m range) as [I1|I1]; destruct (in_dec Nat.eq_dec m (n :: range)) as [I2|I2]; cbn [andb].
      * destruct (us m); [reflexivity|]. destruct (Nat.eq_dec m n); [subst; contradiction|reflexivity].
      * exfalso. apply I2. right; exact I1.
      * destruct I2 as [<-|I2]; [|contradiction]. destruct (Nat.eq_dec n n); [|congruence]. destruct (us n); reflexivity.
      * destruct (Nat.eq_dec m n); [subst; exfalso; apply I2; left; reflexivity|reflexivity].
Qed.
Definition old_fine (old : nat -> option hexp) : Prop := forall n x, old n = Some x -> (n < length D)%nat /\ us n = true /\ hgood n x.
Lemma new_fine : forall n, (n < length D)%nat -> us n = true -> hgood n (hnew n).
Proof. intros n H U. apply good_new; [exact Mz|exact H|exact U|apply Dn, nth_In, H]. Qed.
Lemma lex_pass : forall old T range, old_fine old -> lholds T old -> NoDup range -> (forall n, In n range -> (n < length D)%nat) ->
  lholds (nd_update N.eq_dec N.eq_dec T (fold_left (fill N.eq_dec N.eq_dec) (flat_map (levs old hnew) range) [])) (gex' us old hnew range).
Proof. intros old T range Ho H ND Hr. exact (gtab_train N.eq_dec N.eq_dec (length D) us lpos lkf lval lwl hgood lval_pos lwl_ok old hnew new_fine Ho T range H ND Hr). Qed.
Lemma alig_pass : forall old T range, old_fine old -> aholds T old -> NoDup range -> (forall n, In n range -> (n < length D)%nat) ->
  aholds (updateParsAlig_h T (fold_left (fill hposdec Nat.eq_dec) (flat_map (aevs old hnew) range) [])) (gex' us old hnew range).
Proof.
  intros old T range Ho H ND Hr. rewrite upd_same.
  - exact (gtab_train hposdec Nat.eq_dec (length D) us apos_ akf aval awl hgood aval_pos awl_ok old hnew new_fine Ho T range H ND Hr).
  - exact (proj1 (all_inv hposdec Nat.eq_dec (length D) us apos_ akf aval awl hgood awl_ok old hnew new_fine Ho range Hr)).
  - apply (g_inv _ _ _ _ _ _ _ _ H).
  - intros k c n Hk. pose proof (all_inv hposdec Nat.eq_dec (length D) us apos_ akf aval awl hgood awl_ok old hnew new_fine Ho range Hr) as Ai.
    destruct (aux_in hposdec Nat.eq_dec _ _ _ _ _ Ai Hk) as (A & B & C & _). split; [exact A|]. split; [exact B|]. rewrite C, (g_num _ _ _ _ _ _ _ _ H).
    rewrite (all_curs hposdec Nat.eq_dec (length D) us apos_ akf aval awl hgood awl_ok old hnew Ho range k Hr).
    destruct k as [s t]. cbn [fst snd]. unfold gncounts. apply (sumf_sub (NdGen.oldc hposdec Nat.eq_dec apos_ akf aval old (s, t))).
    + exact ND.
    + intros m Hm. apply in_seq0. auto.
    + intros m. unfold NdGen.oldc. destruct (old m) as [x|] eqn:O; [|lra]. destruct (Ho m x O) as (X1 & X2 & _). eapply gcount_nonneg; [exact aval_pos|exact X1|exact X2].
Qed.
End D.
