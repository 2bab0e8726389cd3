(** C105-C107: training of the HMM alignment model (_incrHmmAligModel, _incrHmmP0AligModel). *)
From Coq Require Import Reals NArith Arith List Bool Permutation Lra Lia.
From Verif Require Import RSums MathModel MathProofs LogNum Ibm1Spec HmmSpec HmmModel HmmVitProofs HmmCacheProofs HmmFwdProofs HmmProofs HmmPostProofs PropertiesHmm Ibm2Model HmmTrainModel HmmTrainSpec HmmTransProofs HmmEstepProofs HmmTrainProofs HmmSessionProofs.
Import ListNotations.
Open Scope R_scope.
(** C105: the expectation step.  Stored logs of expectations, positions and current states from 0. *)
Theorem C105_expectation_step : forall M p, smoothing_ok M -> husable p -> ~ In 0%N (src p) ->
  let n := length (src p) in let x := expectations (HmmModel.vocab M) (lsf M) (asf M) (p0 M) (P_of M) p in
  (forall j i, (j < length (trg p))%nat -> (1 <= i <= 2 * n)%nat -> exp (lex_val (hstep_e M p) (j, i - 1)%nat) = state_ex x j i) /\
  (forall i, (1 <= i <= counted (p0 M) n)%nat -> exp (alig_val (hstep_e M p) (0, i - 1, 0)%nat) = first_ex x i) /\
  (forall j i' i, (S j < length (trg p))%nat -> (1 <= i' <= counted (p0 M) n)%nat -> (1 <= i <= counted (p0 M) n)%nat -> exp (alig_val (hstep_e M p) (S j, i - 1, i')%nat) = trans_ex x j i' i).
Proof.
  intros M p SM U HN n x. destruct (estep_agree M p SM HN U) as (A & B & C). split; [|split].
  - intros j i J I. unfold x. rewrite A by (fold n; lia). f_equal. lia.
  - intros i I. unfold x. rewrite B by (fold n; lia). f_equal. lia.
  - intros j i' i J I1 I2. unfold x. rewrite C by (fold n; lia). f_equal. lia.
Qed.
Print Assumptions C105_expectation_step.
(** when no threshold is active, the expectation of a state is its posterior probability *)
Theorem C105_state_posterior : forall M p j i, smoothing_ok M -> husable p -> ~ In 0%N (src p) -> (j < length (trg p))%nat -> (1 <= i <= 2 * length (src p))%nat ->
  let n := length (src p) in let tr := sm_trans (asf M) (p0 M) (P_of M) n in let em := sm_emit (HmmModel.vocab M) (lsf M) (P_of M) (src p) in
  (forall k, (1 <= k <= 2 * n)%nat -> tiny <= state_joint tr em n (trg p) j k) -> exp (- 9) <= state_post tr em n (trg p) j i <= exp (- / 100) ->
  exp (lex_val (hstep_e M p) (j, i - 1)%nat) = state_post tr em n (trg p) j i.
Proof.
  intros M p j i SM U HN J I n tr em Ti Cl. destruct (C105_expectation_step M p SM U HN) as (A & _ & _). rewrite A by assumption. unfold expectations. cbn [state_ex]. fold n tr em.
  assert (G : forall k, (1 <= k <= 2 * n)%nat -> at_least_tiny (state_joint tr em n (trg p) j k) = state_joint tr em n (trg p) j k) by (intros k Hk; apply Rmax_left, Ti, Hk).
  rewrite G by exact I. rewrite (sumf_ext _ (state_joint tr em n (trg p) j)) by (intros k Hk; apply in_seq in Hk; apply G; lia).
  assert (T : sumf (state_joint tr em n (trg p) j) (seq 1 (2 * n)) = total_prob tr em n (trg p)).
  { unfold state_joint, total_prob. rewrite (sumf_ext _ (fun i => sumf (fun a => path_prob tr em 0 a (trg p) * (if Nat.eqb (nth j a 0%nat) i then 1 else 0)) (paths n (length (trg p))))) by (intros; apply HmmFwdProofs.sumf_filter).
    rewrite sumf_swap. apply sumf_ext. intros a Ha. rewrite sumf_scal. apply in_paths in Ha as [La F]. assert (Ia : In (nth j a 0%nat) (seq 1 (2 * n))).
    { rewrite Forall_forall in F. apply F, nth_In. lia. }
    rewrite (sumf_ext _ (fun i => 1 * (if Nat.eqb i (nth j a 0%nat) then 1 else 0))) by (intros; rewrite Nat.eqb_sym; lra). rewrite (sumf_ind (fun _ => 1) _ _ (seq_NoDup _ _) Ia). lra. }
  rewrite T. fold (state_post tr em n (trg p) j i). unfold clamped. rewrite Rmin_right by apply Cl. apply Rmax_right, Cl.
Qed.
Print Assumptions C105_state_posterior.
(** not the posterior: every NULL state of the first target word is given the expectation of the first of them *)
Theorem C105_first_null_states_refuted : forall M p i, smoothing_ok M -> husable p -> ~ In 0%N (src p) -> p0 M = None -> (length (src p) < i <= 2 * length (src p))%nat ->
  exp (alig_val (hstep_e M p) (0, i - 1, 0)%nat) = exp (alig_val (hstep_e M p) (0, length (src p), 0)%nat).
Proof.
  intros M p i SM U HN E I. destruct (C105_expectation_step M p SM U HN) as (_ & B & _). rewrite E in B. cbn [counted] in B. rewrite B by lia.
  pose proof (B (length (src p) + 1)%nat ltac:(destruct U; lia)) as B1. replace (length (src p) + 1 - 1)%nat with (length (src p)) in B1 by lia. rewrite B1. unfold expectations. cbn [first_ex].
  destruct (Nat.leb_spec i (length (src p))); [lia|]. destruct (Nat.leb_spec (length (src p) + 1) (length (src p))); [lia|]. reflexivity.
Qed.
Print Assumptions C105_first_null_states_refuted.
(** C106: incremental EM.  The queries after any session read the parameters of the specification. *)
Section S.
Variable voc : list pair -> nat.
Variables lamL lamA : R.
Variable z : option R.
Hypothesis HL : 0 < lamL < 1.
Hypothesis HA : 0 < lamA < 1.
Hypothesis Hvoc : forall D, (0 < voc D)%nat.
Hypothesis Hz : match z with Some p => 0 < p < 1 | None => True end.
Notation step := (hem_op voc lamL lamA z).
Notation view := (hview voc lamL lamA z).
Notation istep := (hiem_op voc lamL lamA z).
Definition answers (M : hmm) (V : nat) (P : params) : Prop :=
  (forall prev n i, (1 <= n)%nat -> (prev <= 2 * n)%nat -> (1 <= i <= 2 * n)%nat -> exp (logaProb M prev n i) = sm_trans lamA z P n prev i) /\
  (forall s i w, exp (logpts M (state_word s i) w) = sm_emit V lamL P s i w).
Lemma answers_view : forall D E, answers (view D E) (voc D) (P_of (view D E)).
Proof.
  intros D E. pose proof (smok voc lamL lamA z HL HA Hvoc Hz D E) as SM. split.
  - intros prev n i N Q I. destruct (trans_value (view D E) SM n prev i N Q I) as [H1 H2]. unfold sm_trans. destruct (in_dec Nat.eq_dec i (dests n prev)) as [X|X].
    + apply H1. apply in_dests in X; [exact X|lia|lia].
    + rewrite H2; [reflexivity|]. intros B. apply X, in_dests; [lia|lia|exact B].
  - intros s i w. rewrite (logpts_exp _ SM). unfold sm_emit. f_equal. unfold unsmoothed_logpts, P_of, tiny. cbn [lcount ltotal].
    destruct (lexNumer (view D E) (state_word s i) w); [|reflexivity]. destruct (lexDenom (view D E) (state_word s i)); [apply exp_minus|reflexivity].
Qed.
Theorem C106_incremental_em : forall ops, hlegal 0 ops -> let st := fold_left step ops ([], hem_new) in let x := fold_left istep ops hiem_new in
  fst st = fst x /\ answers (view (fst st) (snd st)) (voc (fst x)) (params_of z x).
Proof.
  intros ops L st x. pose proof (session_inv voc lamL lamA z HL HA Hvoc Hz ops [] hem_new hiem_new (hinv_new z) L) as I. fold st x in I.
  pose proof (hi_D _ _ _ _ I) as E. split; [congruence|]. rewrite <- (hinv_params voc lamL lamA z _ _ _ I). rewrite E. apply answers_view.
Qed.
(** batch training replaces the parameters by those of the range, from any previous state *)
Theorem C106_batch_training : forall D E b e, (forall p, In p D -> float_weight p /\ ~ In 0%N (src p)) -> (e < length D)%nat -> let M := view D E in
  answers (view D (efficientBatchTrainingForRange_h voc lamL lamA z D (range_of b e) E)) (voc D)
    (params_of z (D, fun n => if (if in_dec Nat.eq_dec n (range_of b e) then true else false) && husableb (nth n D no_pair) then Some (expectations (voc D) lamL lamA z (P_of M) (nth n D no_pair)) else None)).
Proof.
  intros D E b e F Le M. unfold M. rewrite <- (batch_params voc lamL lamA z HL HA Hvoc Hz D E (range_of b e)).
  - apply answers_view.
  - split; intros p Hp; apply F, Hp.
  - apply seq_NoDup.
  - intros n I. unfold range_of in I. apply in_seq in I. lia.
Qed.
Lemma sumf_perm : forall {A} (f : A -> R) l l', Permutation l l' -> sumf f l = sumf f l'.
Proof. intros A f l l' P. induction P; cbn; lra. Qed.
Lemma sumf_sub_eq : forall {A} (d : forall a b : A, {a = b} + {a <> b}) (f : A -> R) l l', NoDup l -> NoDup l' -> incl l l' -> (forall w, ~ In w l -> f w = 0) -> sumf f l' = sumf f l.
Proof.
  intros A d f l l' N1 N2 Inc Z. transitivity (sumf f (filter (fun w => if in_dec d w l then true else false) l')).
  - clear N2 Inc. induction l' as [|a l' IH]; [reflexivity|]. cbn [filter sumf]. destruct (in_dec d a l) as [I|I]; cbn [sumf]; rewrite IH; [reflexivity|]. rewrite (Z a I). lra.
  - apply sumf_perm. apply NoDup_Permutation; [apply NoDup_filter; exact N2|exact N1|]. intros w. rewrite filter_In. destruct (in_dec d w l) as [I|I]; split; try tauto; [intros _; split; [apply Inc, I|reflexivity]|intros [_ Q]; discriminate].
Qed.
(** C107: after training, the parameters are distributions *)
Definition ex_ok (p : pair) (e : expect) : Prop :=
  husable p /\ (forall j i, 0 < state_ex e j i) /\ (forall i, 0 < first_ex e i) /\ (forall j i' i, 0 < trans_ex e j i' i) /\ forall i, (length (src p) < i)%nat -> first_ex e i = first_ex e (length (src p) + 1).
Definition x_ok (x : hiem) : Prop := (forall p, In p (fst x) -> 0 < weight p) /\ forall n e, snd x n = Some e -> (n < length (fst x))%nat /\ ex_ok (nth n (fst x) no_pair) e.
Lemma clamped_pos : forall v, 0 < clamped v.
Proof. intros v. pose proof (clamped_low v). pose proof (exp_pos (- 9)). lra. Qed.
Lemma expectations_ok : forall V P p, husable p -> ex_ok p (expectations V lamL lamA z P p).
Proof.
  intros V P p U. split; [exact U|]. unfold expectations. cbn [state_ex first_ex trans_ex]. repeat split; intros; try apply clamped_pos.
  destruct (Nat.leb_spec i (length (src p))); [lia|]. destruct (Nat.leb_spec (length (src p) + 1) (length (src p))); [lia|]. reflexivity.
Qed.
Lemma x_ok_new : x_ok hiem_new.
Proof. split; [intros p []|discriminate]. Qed.
Lemma x_ok_op : forall ops x, x_ok x -> hlegal (length (fst x)) ops -> x_ok (fold_left istep ops x).
Proof.
  induction ops as [|[p|b e] ops IH]; intros x [X1 X2] L; [split; assumption| |]; cbn [fold_left]; apply IH.
  - destruct L as (W & _ & _). split; cbn [hiem_op fst snd].
    + intros q Q. apply in_app_iff in Q as [Q|[<-|[]]]; [apply X1, Q|]. unfold float_weight in W. pose proof (exp_pos (-104)). lra.
    + intros n e0 E. destruct (X2 n e0 E) as [A B]. split; [rewrite app_length; lia|]. rewrite app_nth1 by exact A. exact B.
  - cbn [hiem_op fst]. rewrite app_length, Nat.add_1_r. apply L.
  - split; cbn [hiem_op hiem_train fst snd]; [exact X1|]. intros n e0 E. destruct (in_dec Nat.eq_dec n (range_of b e)) as [I|I]; cbn [andb] in E; [|exact (X2 n e0 E)].
    destruct (husableb (nth n (fst x) no_pair)) eqn:U; [|exact (X2 n e0 E)]. injection E as <-. unfold range_of in I. apply in_seq in I. destruct L. split; [lia|]. apply expectations_ok, husable_ok, U.
  - apply L.
Qed.
Lemma over_nonneg : forall {A} x (f : pair -> expect -> A -> R) a, (forall n e, snd x n = Some e -> 0 <= f (nth n (fst x) no_pair) e a) -> 0 <= over x f a.
Proof. intros A x f a H. unfold over. apply sumf_nonneg. intros n _. destruct (snd x n) eqn:E; [apply H, E|lra]. Qed.
Lemma over_pos : forall {A} x (f : pair -> expect -> A -> R) a n0 e0, (forall n e, snd x n = Some e -> 0 <= f (nth n (fst x) no_pair) e a) -> (n0 < length (fst x))%nat -> snd x n0 = Some e0 -> 0 < f (nth n0 (fst x) no_pair) e0 a -> 0 < over x f a.
Proof. intros A x f a n0 e0 H L E P. unfold over. apply (sumf_pos _ _ n0); [|apply in_seq; lia|rewrite E; exact P]. intros n _. destruct (snd x n) eqn:Q; [apply H, Q|lra]. Qed.
Lemma weight_pos : forall x n e, x_ok x -> snd x n = Some e -> 0 < weight (nth n (fst x) no_pair).
Proof. intros x n e [X1 X2] E. apply X1, nth_In. apply (X2 n e E). Qed.
Lemma trans_cnt_nonneg : forall p e row n col, ex_ok p e -> 0 < weight p -> 0 <= trans_cnt z p e row n col.
Proof.
  intros p e row n col (_ & _ & F & T & _) W. unfold trans_cnt. destruct (_ && _)%bool; [|lra]. apply Rmult_le_pos; [lra|]. destruct (Nat.eqb row 0); [left; apply F|].
  destruct (in_dec _ _ _); [|lra]. apply sumf_nonneg. intros j _. left. apply T.
Qed.
Lemma total_nonneg : forall x row n col, x_ok x -> 0 <= trans_total z x row n col.
Proof. intros x row n col X. apply over_nonneg. intros m e E. apply trans_cnt_nonneg; [apply (proj2 X m e E)|apply (weight_pos x m e X E)]. Qed.
(** a pair of n source words, and two target words for rows other than the first, makes every cell of the rows 0..n positive *)
Lemma total_pos : forall x m e row n col, x_ok x -> snd x m = Some e -> n = length (src (nth m (fst x) no_pair)) -> (1 <= col <= counted z n)%nat ->
  (row = 0%nat \/ ((1 <= row <= n)%nat /\ In col (dests n row) /\ (2 <= length (trg (nth m (fst x) no_pair)))%nat)) -> 0 < trans_total z x row n col.
Proof.
  intros x m e row n col X E -> C R. destruct (proj2 X m e E) as [Lm Ok]. unfold trans_total. apply (over_pos x _ _ m e).
  - intros m' e' E'. apply trans_cnt_nonneg; [apply (proj2 X m' e' E')|apply (weight_pos x m' e' X E')].
  - exact Lm.
  - exact E.
  - pose proof (weight_pos x m e X E) as W. destruct Ok as ([[U _] _] & _ & F & T & _). unfold trans_cnt. cbn [fst snd]. rewrite Nat.eqb_refl. pose proof (counted_range z _ U) as CR.
    assert (Rn : (row <= counted z (length (src (nth m (fst x) no_pair))))%nat) by (unfold counted in *; destruct z; destruct R as [->|[R _]]; lia).
    destruct (Nat.leb_spec row (counted z (length (src (nth m (fst x) no_pair))))); [|lia]. destruct (Nat.leb_spec 1 col); [|lia]. destruct (Nat.leb_spec col (counted z (length (src (nth m (fst x) no_pair))))); [|lia]. cbn [andb].
    apply Rmult_lt_0_compat; [exact W|]. destruct R as [->|(R1 & R2 & R3)]; [apply F|]. destruct (Nat.eqb_spec row 0); [lia|]. destruct (in_dec _ _ _); [|contradiction].
    apply (sumf_pos _ _ 0%nat); [intros; left; apply T|apply in_seq; lia|apply T].
Qed.
Lemma null_cells : forall x n k, x_ok x -> z = None -> (n + 1 <= k <= 2 * n)%nat -> trans_total z x 0 n k = trans_total z x 0 n (n + 1).
Proof.
  clear Hz. intros x n k X Z K. rewrite Z. clear Z. unfold trans_total, over. apply sumf_ext. intros m _. destruct (snd x m) as [e|] eqn:E; [|reflexivity]. destruct (proj2 X m e E) as [_ (_ & _ & _ & _ & Q)].
  unfold trans_cnt. cbn [fst snd counted]. destruct (Nat.eqb_spec n (length (src (nth m (fst x) no_pair)))) as [->|]; [|reflexivity]. cbn [andb Nat.eqb].
  set (n := length (src (nth m (fst x) no_pair))) in *. destruct (Nat.leb_spec 0 (2 * n)); [|lia]. destruct (Nat.leb_spec 1 k); [|lia]. destruct (Nat.leb_spec k (2 * n)); [|lia]. destruct (Nat.leb_spec 1 (n + 1)); [|lia]. destruct (Nat.leb_spec (n + 1) (2 * n)); [|lia]. cbn [andb].
  rewrite Q by lia. reflexivity.
Qed.
Lemma not_dest : forall x row n col, (1 <= row)%nat -> ~ In col (dests n row) -> trans_total z x row n col = 0.
Proof.
  intros x row n col R H. unfold trans_total, over. apply sumf_zero. intros m _. destruct (snd x m) as [e|]; [|reflexivity]. unfold trans_cnt. cbn [fst snd].
  destruct (_ && _)%bool; [|reflexivity]. destruct (Nat.eqb_spec row 0); [lia|]. destruct (in_dec _ _ _); [contradiction|lra].
Qed.
Lemma not_counted : forall x row n col, (counted z n < col)%nat -> trans_total z x row n col = 0.
Proof.
  intros x row n col H. unfold trans_total, over. apply sumf_zero. intros m _. destruct (snd x m) as [e|]; [|reflexivity]. unfold trans_cnt. cbn [fst snd].
  destruct (Nat.leb_spec col (counted z n)); [lia|]. rewrite andb_false_r. reflexivity.
Qed.
Lemma row_sum : forall x row n, x_ok x -> (1 <= n)%nat -> (row <= n)%nat ->
  sumf (trans_total z x row n) (seq 1 (2 * n)) = sumf (trans_total z x row n) (seq 1 n) + match z with Some _ => 0 | None => if Nat.eqb row 0 then INR n * trans_total z x row n (n + 1) else trans_total z x row n (n + row) end.
Proof.
  intros x row n X N R. replace (2 * n)%nat with (n + n)%nat by lia. rewrite seq_app, sumf_app. f_equal. destruct z as [p|] eqn:Z.
  - rewrite <- Z. apply sumf_zero. intros c C. apply in_seq in C. apply not_counted. rewrite Z. cbn. lia.
  - rewrite <- Z. destruct (Nat.eqb_spec row 0) as [->|R0].
    + rewrite (sumf_ext _ (fun _ => trans_total z x 0 n (n + 1))) by (intros k K; apply in_seq in K; apply null_cells; [exact X|exact Z|lia]). rewrite sumf_const, seq_length; lra.
    + apply sumf_one; [apply seq_NoDup|apply in_seq; lia|]. intros k K Nk. apply in_seq in K. apply not_dest; [lia|]. unfold dests. rewrite in_app_iff. destruct (Nat.eqb_spec row 0); [lia|]. unfold origin. destruct (Nat.ltb_spec n row); [lia|].
      intros [Q|[Q|[]]]; [apply in_seq in Q; lia|lia].
Qed.
Lemma log_count_0' : log_count (0 + 0) = None.
Proof. rewrite Rplus_0_r. apply log_count_0. Qed.
Lemma log_count_pos : forall c, 0 < c -> log_count c = Some (ln c).
Proof. intros c H. unfold log_count. destruct (Rlt_dec 0 c); [reflexivity|lra]. Qed.
Lemma rows_complete : forall M x m e prev, P_of M = params_of z x -> p0 M = z -> x_ok x -> snd x m = Some e -> let n := length (src (nth m (fst x) no_pair)) in
  (prev <= 2 * n)%nat -> (prev = 0%nat \/ (2 <= length (trg (nth m (fst x) no_pair)))%nat) -> row_complete M n prev.
Proof.
  intros M x m e prev HP Hp X E n Pn Tl. destruct (proj2 X m e E) as [_ ([[U _] _] & _)]. fold n in U.
  assert (An : forall a b c, aligNumer M a b c = log_count (trans_total z x a b c)) by (intros; change (aligNumer M) with (tcount (P_of M)); rewrite HP; reflexivity).
  assert (Ad : forall a b, aligDenom M a b = log_count (sumf (trans_total z x a b) (seq 1 (2 * b)))) by (intros; change (aligDenom M) with (ttotal (P_of M)); rewrite HP; reflexivity).
  set (r := origin n prev). assert (Rr : (r <= n)%nat /\ (r = 0%nat <-> prev = 0%nat)) by (unfold r, origin; destruct (Nat.ltb_spec n prev); lia). destruct Rr as [Rr R0].
  pose proof (counted_range z n U) as CR. assert (Cn : (n <= counted z n)%nat) by (unfold counted; destruct z; lia).
  assert (Pos : forall col, (1 <= col <= counted z n)%nat -> (r = 0%nat \/ In col (dests n r)) -> 0 < trans_total z x r n col).
  { intros col C D. apply (total_pos x m e); [exact X|exact E|reflexivity|exact C|]. destruct (Nat.eq_dec r 0) as [Q|Q]; [left; exact Q|right]. split; [lia|]. split; [tauto|]. destruct Tl as [Tl|Tl]; [tauto|exact Tl]. }
  assert (Wd : forall i, In i (seq 1 n) -> 0 < trans_total z x r n i). { intros i I. apply Pos; [apply in_seq in I; lia|]. right. unfold dests. apply in_or_app. left. exact I. }
  assert (Eq : (prev =? 0)%nat = (r =? 0)%nat) by (destruct (Nat.eqb_spec prev 0), (Nat.eqb_spec r 0); tauto).
  assert (Tp : 0 < sumf (trans_total z x r n) (seq 1 (2 * n))).
  { apply (sumf_pos _ _ 1%nat); [intros; apply total_nonneg, X|apply in_seq; lia|]. apply Wd, in_seq. lia. }
  exists (ln (sumf (trans_total z x r n) (seq 1 (2 * n)))), (fun i => ln (trans_total z x r n i)). fold r. rewrite Ad, (log_count_pos _ Tp). split; [reflexivity|]. rewrite Hp.
  pose proof (row_sum x r n X U Rr) as RS. destruct z as [p|] eqn:Z; rewrite <- Z in *.
  - split; [intros i I; rewrite An; apply log_count_pos, Wd, I|]. rewrite exp_ln by exact Tp. rewrite RS, Rplus_0_r. apply sumf_ext. intros i I. apply exp_ln, Wd, I.
  - assert (Nl : 0 < trans_total z x r n (n + (if Nat.eqb prev 0 then 1 else r))).
    { apply Pos; [rewrite Z; cbn; destruct (Nat.eqb_spec prev 0); lia|]. rewrite Eq. destruct (Nat.eqb_spec r 0) as [Q|Q]; [left; exact Q|right]. unfold dests. apply in_or_app. right. destruct (Nat.eqb_spec r 0); [lia|]. left. unfold origin. destruct (Nat.ltb_spec n r); lia. }
    split.
    + intros i I. rewrite An. apply log_count_pos. apply in_app_or in I as [I|[<-|[]]]; [apply Wd, I|exact Nl].
    + rewrite (exp_ln _ Tp). rewrite RS. f_equal; [apply sumf_ext; intros i I; apply exp_ln, Wd, I|]. rewrite <- Eq. revert Nl. destruct (Nat.eqb prev 0); intros Nl; rewrite exp_ln by exact Nl; reflexivity.
Qed.
(** after any session, for every number of source words n a pair of which is among the trained ones: the transitions out of every state (of the
    start, if the pair has one target word only) sum to one *)
Theorem C107_transitions_sum_to_one : forall ops, hlegal 0 ops -> let st := fold_left step ops ([], hem_new) in let x := fold_left istep ops hiem_new in
  forall m e prev, snd x m = Some e -> let n := length (src (nth m (fst x) no_pair)) in (prev <= 2 * n)%nat -> (prev = 0%nat \/ (2 <= length (trg (nth m (fst x) no_pair)))%nat) ->
  sumf (fun i => exp (logaProb (view (fst st) (snd st)) prev n i)) (dests n prev) = 1.
Proof.
  intros ops L st x m e prev E n P T. pose proof (session_inv voc lamL lamA z HL HA Hvoc Hz ops [] hem_new hiem_new (hinv_new z) L) as I. fold st x in I.
  pose proof (x_ok_op ops hiem_new x_ok_new L) as X. fold x in X. destruct (proj2 X m e E) as [_ ([[U _] _] & _)].
  apply C72_transitions_sum_to_one; [apply smok; assumption|exact U|exact P|]. apply (rows_complete _ x m e); [apply (hinv_params voc lamL lamA z _ _ _ I)|reflexivity|exact X|exact E|exact P|exact T].
Qed.
(** the lexical probabilities of a source word s of a trained pair (or of NULL) sum to one over the target vocabulary W, up to exp(-99999) for every word never seen with s *)
Theorem C107_lexical_sum_to_one : forall ops W, hlegal 0 ops -> let st := fold_left step ops ([], hem_new) in let x := fold_left istep ops hiem_new in let M := view (fst st) (snd st) in
  NoDup W -> (forall p w, In p (fst x) -> In w (trg p) -> In w W) -> length W = voc (fst x) ->
  forall m e s, snd x m = Some e -> (s = 0%N \/ In s (src (nth m (fst x) no_pair))) ->
  exists k, (k < length W)%nat /\ sumf (fun w => exp (logpts M s w)) W = 1 + (1 - lamL) * (INR k * exp (- 99999)).
Proof.
  intros ops W L st x M ND Wc LW m e s E Hs. pose proof (session_inv voc lamL lamA z HL HA Hvoc Hz ops [] hem_new hiem_new (hinv_new z) L) as I. fold st x in I.
  pose proof (x_ok_op ops hiem_new x_ok_new L) as X. fold x in X. pose proof (hinv_params voc lamL lamA z _ _ _ I) as HP. fold M in HP.
  assert (Ln : forall a b, lexNumer M a b = log_count (lex_total x a b)) by (intros; change (lexNumer M) with (lcount (P_of M)); rewrite HP; reflexivity).
  assert (Ld : lexDenom M s = log_count (sumf (lex_total x s) (nodup N.eq_dec (flat_map trg (fst x))))) by (change (lexDenom M) with (ltotal (P_of M)); rewrite HP; reflexivity).
  assert (Nn : forall a b, 0 <= lex_total x a b).
  { intros a b. apply over_nonneg. intros n e' E'. cbn [fst snd]. unfold lex_cnt. apply Rmult_le_pos; [left; apply (weight_pos x n e' X E')|]. destruct (proj2 X n e' E') as [_ (_ & Sp & _)].
    apply sumf_nonneg. intros j _. apply sumf_nonneg. intros i _. destruct (_ && _)%bool; [left; apply Sp|lra]. }
  destruct (proj2 X m e E) as [Lm ([[U _] [U' _]] & Sp & _)]. set (p := nth m (fst x) no_pair) in *.
  assert (exists i, (1 <= i <= 2 * length (src p))%nat /\ state_word (src p) i = s) as (i0 & I0 & S0).
  { destruct Hs as [->|Hs].
    - exists (length (src p) + 1)%nat. split; [lia|]. unfold state_word. destruct (Nat.leb_spec (length (src p) + 1) (length (src p))); [lia|reflexivity].
    - destruct (In_nth _ _ 0%N Hs) as (k & K & Q). exists (S k). split; [lia|]. unfold state_word. destruct (Nat.leb_spec (S k) (length (src p))); [|lia]. rewrite Nat.sub_succ, Nat.sub_0_r. exact Q. }
  set (w0 := nth 0 (trg p) 0%N). assert (P0 : 0 < lex_total x s w0).
  { unfold lex_total. apply (over_pos x _ _ m e).
    - intros n e' E'. cbn [fst snd]. unfold lex_cnt. apply Rmult_le_pos; [left; apply (weight_pos x n e' X E')|]. destruct (proj2 X n e' E') as [_ (_ & Sp' & _)].
      apply sumf_nonneg. intros j _. apply sumf_nonneg. intros i _. destruct (_ && _)%bool; [left; apply Sp'|lra].
    - exact Lm.
    - exact E.
    - cbn [fst snd]. fold p. unfold lex_cnt. apply Rmult_lt_0_compat; [apply (weight_pos x m e X E)|]. apply (sumf_pos _ _ 0%nat); [|apply in_seq; lia|].
      + intros j _. apply sumf_nonneg. intros i _. destruct (_ && _)%bool; [left; apply Sp|lra].
      + apply (sumf_pos _ _ i0); [|apply in_seq; lia|].
        * intros i _. destruct (_ && _)%bool; [left; apply Sp|lra].
        * rewrite S0. unfold w0. rewrite !N.eqb_refl. cbn [andb]. apply Sp. }
  assert (W0 : In w0 W). { apply (Wc p); [apply nth_In, Lm|apply nth_In; lia]. }
  set (sw := fun w => match lexNumer M s w with Some _ => true | None => false end).
  assert (Sw : forall w, sw w = true <-> 0 < lex_total x s w).
  { intros w. unfold sw. rewrite Ln. unfold log_count. destruct (Rlt_dec 0 (lex_total x s w)); split; intros; try assumption; try reflexivity; try discriminate; contradiction. }
  assert (Zw : forall w, ~ In w (nodup N.eq_dec (flat_map trg (fst x))) -> lex_total x s w = 0).
  { intros w Hw. unfold lex_total, over. apply sumf_zero. intros n Hn. apply in_seq in Hn. destruct (snd x n) as [e'|]; [|reflexivity]. cbn [fst snd]. unfold lex_cnt. rewrite (sumf_zero _ (seq 0 _)); [lra|].
    intros j Hj. apply in_seq in Hj. apply sumf_zero. intros i _. destruct (N.eqb_spec (nth j (trg (nth n (fst x) no_pair)) 0%N) w) as [<-|]; [|rewrite andb_false_r; reflexivity].
    exfalso. apply Hw, nodup_In, in_flat_map. exists (nth n (fst x) no_pair). split; [apply nth_In; lia|apply nth_In; lia]. }
  assert (Den : sumf (lex_total x s) (nodup N.eq_dec (flat_map trg (fst x))) = sumf (lex_total x s) (filter sw W)).
  { rewrite HmmFwdProofs.sumf_filter. rewrite (sumf_ext (fun v => lex_total x s v * (if sw v then 1 else 0)) (lex_total x s)).
    2:{ intros w _. destruct (sw w) eqn:Q; [lra|]. assert (~ 0 < lex_total x s w) by (rewrite <- Sw; congruence). specialize (Nn s w). lra. }
    symmetry. apply (sumf_sub_eq N.eq_dec).
    - apply NoDup_nodup.
    - exact ND.
    - intros w Hw. apply nodup_In, in_flat_map in Hw as (q & Q1 & Q2). apply (Wc q w Q1 Q2).
    - exact Zw. }
  exists (length (filter (fun w => negb (sw w)) W)). split.
  - assert (Q : (length (filter (fun w => negb (sw w)) W) + length (filter sw W) = length W)%nat).
    { clear. induction W as [|w W IH]; [reflexivity|]. cbn [filter]. destruct (sw w); cbn [negb length]; lia. }
    assert (In w0 (filter sw W)) by (apply filter_In; split; [exact W0|apply Sw; exact P0]). destruct (filter sw W); [contradiction|cbn in Q; lia].
  - assert (Dp : 0 < sumf (lex_total x s) (filter sw W)).
    { apply (sumf_pos _ _ w0); [intros; apply Nn|apply filter_In; split; [exact W0|apply Sw; exact P0]|exact P0]. }
    apply (C72_lexical_sum M s W (ln (sumf (lex_total x s) (filter sw W))) (fun w => ln (lex_total x s w))).
    + apply smok; assumption.
    + rewrite LW. change (HmmModel.vocab M) with (voc (fst st)). f_equal. apply (hi_D _ _ _ _ I).
    + rewrite Ld, Den. apply log_count_pos, Dp.
    + intros w. rewrite Ln. unfold log_count. destruct (Rlt_dec 0 (lex_total x s w)); [right; reflexivity|left; reflexivity].
    + fold sw. rewrite exp_ln by exact Dp. apply sumf_ext. intros w Hw. apply filter_In in Hw as [_ Hw]. apply exp_ln, Sw, Hw.
Qed.
(** not the M-step of the HMM: a NULL state shares the row of the word it comes from, but the transitions out of it are counted in a row of its own,
    which no query reads: the row holds strictly less than the expected number of transitions from the states it is used for *)
Theorem C106_null_rows_refuted : forall p, z = None -> husable p -> (2 <= length (trg p))%nat -> let x := fold_left istep [AddPair p; Train 0 0] hiem_new in float_weight p ->
  forall r col, (1 <= r <= length (src p))%nat -> (1 <= col <= length (src p))%nat ->
  exists e v, snd x 0%nat = Some e /\ tcount (params_of z x) r (length (src p)) col = Some v /\
    exp v < weight p * sumf (fun j => trans_ex e j r col + trans_ex e j (length (src p) + r) col) (seq 0 (length (trg p) - 1)) /\
    origin (length (src p)) (length (src p) + r) = r.
Proof.
  intros p Z U T x Fw r col R C. set (n := length (src p)) in *. set (e := expectations (voc [p]) lamL lamA z (params_of z ([p], fun _ => None)) p).
  assert (Ex : snd x 0%nat = Some e). { unfold x. cbn [fold_left hiem_op hiem_train fst snd app hiem_new nth range_of]. rewrite (proj2 (husable_ok p) U). cbn. reflexivity. }
  pose proof (expectations_ok (voc [p]) (params_of z ([p], fun _ => None)) p U) as Ok. fold e in Ok. destruct Ok as (_ & _ & _ & Tp & _).
  assert (W : 0 < weight p) by (unfold float_weight in Fw; pose proof (exp_pos (-104)); lra).
  assert (Tt : trans_total z x r n col = weight p * sumf (fun j => trans_ex e j r col) (seq 0 (length (trg p) - 1))).
  { unfold trans_total, over. change (fst x) with [p]. cbn [length seq sumf nth fst snd]. rewrite Ex. cbn [sumf]. unfold trans_cnt. fold n. rewrite Nat.eqb_refl, Z. cbn [counted].
    destruct (Nat.leb_spec r (2 * n)); [|lia]. destruct (Nat.leb_spec 1 col); [|lia]. destruct (Nat.leb_spec col (2 * n)); [|lia]. cbn [andb]. destruct (Nat.eqb_spec r 0); [lia|].
    destruct (in_dec Nat.eq_dec col (dests n r)) as [D|D]; [lra|]. exfalso. apply D. unfold dests. apply in_or_app. left. apply in_seq. lia. }
  assert (Sp : forall i', 0 < sumf (fun j => trans_ex e j i' col) (seq 0 (length (trg p) - 1))).
  { intros i'. apply (sumf_pos _ _ 0%nat); [intros; left; apply Tp|apply in_seq; lia|apply Tp]. }
  exists e, (ln (trans_total z x r n col)). split; [exact Ex|]. split; [|split].
  - apply log_count_pos. rewrite Tt. apply Rmult_lt_0_compat; [exact W|apply Sp].
  - rewrite exp_ln by (rewrite Tt; apply Rmult_lt_0_compat; [exact W|apply Sp]). rewrite Tt. apply Rmult_lt_compat_l; [exact W|]. rewrite sumf_plus. specialize (Sp (n + r)%nat). lra.
  - unfold origin. destruct (Nat.ltb_spec n (n + r)); lia.
Qed.
End S.
(** rows beyond n are never read *)
Theorem C106_null_rows_never_read : forall M M' n prev i, smoothing_ok M -> smoothing_ok M' -> (1 <= n)%nat -> (prev <= 2 * n)%nat -> (1 <= i <= 2 * n)%nat -> asf M = asf M' -> p0 M = p0 M' ->
  (forall row col, (row <= n)%nat -> aligNumer M row n col = aligNumer M' row n col /\ aligDenom M row n = aligDenom M' row n) -> logaProb M prev n i = logaProb M' prev n i.
Proof.
  intros M M' n prev i SM SM' N P I HA HP H. apply exp_inv. destruct (C72_transition_value M n prev i SM N P I) as [H1 H2]. destruct (C72_transition_value M' n prev i SM' N P I) as [H1' H2'].
  destruct (in_dec Nat.eq_dec i (dests n prev)) as [D|D].
  - apply in_dests in D; [|lia|lia]. rewrite H1, H1' by exact D. rewrite HA, HP. f_equal. assert (O : (origin n prev <= n)%nat) by (unfold origin; destruct (Nat.ltb_spec n prev); lia).
    unfold raw_trans, cell. rewrite (proj1 (H _ i O)), (proj2 (H _ i O)). rewrite (proj1 (H _ (n + (if Nat.eqb prev 0 then 1 else origin n prev))%nat O)). reflexivity.
  - assert (B : ~ allowed n prev i) by (intros B; apply D, in_dests; [lia|lia|exact B]). rewrite H2, H2' by exact B. reflexivity.
Qed.
Print Assumptions C106_null_rows_never_read.
Print Assumptions C106_incremental_em.
Print Assumptions C106_batch_training.
Print Assumptions C106_null_rows_refuted.
Print Assumptions C107_transitions_sum_to_one.
Print Assumptions C107_lexical_sum_to_one.
(** a session *)
Definition exh_p : pair := {| src := [1%N]; trg := [5%N]; weight := 1 |}.
Definition exh_q : pair := {| src := [1%N; 2%N]; trg := [5%N; 6%N; 7%N]; weight := 2 |}.
Definition exh_ops : list em_op := [AddPair exh_p; Train 0 0; AddPair exh_q; Train 0 1].
Lemma exh_w : forall w, 1 <= w -> exp (- 104) <= w.
Proof. intros w H. apply Rle_trans with 1; [|exact H]. rewrite <- exp_0. apply exp_le. lra. Qed.
Example C106_nonvacuous : hlegal 0 exh_ops.
Proof. cbn. unfold float_weight. cbn. split; [apply exh_w; lra|]. split; [intros [H|[]]; discriminate|]. split; [lia|]. split; [apply exh_w; lra|]. split; [intros [H|[H|[]]]; discriminate|]. split; [lia|exact Logic.I]. Qed.
Example C105_nonvacuous : husable exh_q /\ ~ In 0%N (src exh_q).
Proof. split; [unfold husable; cbn; lia|]. intros [H|[H|[]]]; discriminate. Qed.
Notation exh_x := (fold_left (hiem_op (fun _ => 8%nat) (/ 10) (/ 10) None)).
Example C107_nonvacuous : exists e, snd (exh_x exh_ops hiem_new) 1%nat = Some e /\ (2 <= length (trg (nth 1 (fst (exh_x exh_ops hiem_new)) no_pair)))%nat.
Proof.
  cbn [exh_ops fold_left hiem_op hiem_train fst snd app hiem_new range_of]. eexists. split; [|cbn; lia]. destruct (in_dec Nat.eq_dec 1%nat (seq 0 (S 1 - 0))) as [I|I]; [|exfalso; apply I; apply in_seq; lia].
  cbn [andb nth husableb exh_p exh_q src trg length Nat.leb]. reflexivity.
Qed.
(** after the first pass on ([1],[5]), half of the word 5 is attributed to the word 1 and half to NULL *)
Example C106_first_pass : lex_total (exh_x [AddPair exh_p; Train 0 0] hiem_new) 1%N 5%N = / 2.
Proof.
  unfold fold_left, hiem_op, hiem_new, hiem_train, lex_total, over. cbn [fst snd length app seq sumf nth]. unfold range_of. destruct (in_dec Nat.eq_dec 0%nat (seq 0 (S 0 - 0))) as [I|I]; [|exfalso; apply I; apply in_seq; lia].
  cbn [andb husableb exh_p src trg length Nat.leb]. unfold lex_cnt. cbn [weight src trg length Nat.mul Nat.add seq sumf nth]. unfold state_word. cbn [length Nat.leb Nat.sub nth N.eqb Pos.eqb andb].
  unfold expectations. cbn [state_ex src trg length Nat.mul Nat.add seq sumf]. unfold exh_p. cbn [src trg length Nat.mul Nat.add seq sumf]. set (P := params_of _ _).
  assert (Q : state_joint (sm_trans (/ 10) None P 1) (sm_emit 8 (/ 10) P [1%N]) 1 [5%N] 0 1 = state_joint (sm_trans (/ 10) None P 1) (sm_emit 8 (/ 10) P [1%N]) 1 [5%N] 0 2).
  { unfold state_joint, paths. cbn [length Nat.mul Nat.add seq seqs map flat_map app filter nth Nat.eqb sumf path_prob].
    assert (Pl : forall s t, lcount P s t = None). { intros s t. unfold P, params_of, lex_total, over. cbn [lcount fst snd length seq sumf]. apply log_count_0'. }
    assert (Pt : forall s n t, tcount P s n t = None). { intros s n t. unfold P, params_of, trans_total, over. cbn [tcount fst snd length seq sumf]. apply log_count_0'. }
    unfold sm_emit, sm_trans, raw_trans, cell. rewrite !Pl, !Pt. destruct (in_dec Nat.eq_dec 1%nat (dests 1 0)) as [D1|D1]; [|exfalso; apply D1; cbn; auto]. destruct (in_dec Nat.eq_dec 2%nat (dests 1 0)) as [D2|D2]; [|exfalso; apply D2; cbn; auto].
    reflexivity. }
  cbn [state_ex src trg length Nat.mul Nat.add seq sumf]. rewrite Q. set (g := at_least_tiny _). assert (0 < g) by apply tiny_pos. replace (g / (g + (g + 0))) with (/ 2) by (field; lra).
  unfold clamped. assert (A : exp (- / 100) >= / 2).
  { pose proof (exp_ineq1_le (- / 100)). lra. }
  rewrite Rmin_right by lra. rewrite Rmax_right; [cbn; lra|]. replace (-9) with (Ropp 9) by lra. rewrite exp_Ropp. apply Rinv_le_contravar; [lra|]. pose proof (exp_ineq1_le 9). lra.
Qed.
