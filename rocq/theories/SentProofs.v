From Coq Require Import Ascii String Arith List Bool Lia ZArith.
From Verif Require Import TextSpec TextModel TextProofs SentSpec SentModel.
Import ListNotations.

Definition spos (s : stream) (l : list str) (k : nat) : Prop :=
  sopen s = true /\ content s = file_of l /\ srest s = file_of (skipn k l) /\ Forall good_line l.
Lemma skipn_nth : forall A (l : list A) k d, k < length l -> skipn k l = nth k l d :: skipn (S k) l.
Proof. induction l as [|x l IH]; intros [|k] d H; simpl in *; try lia; auto. now apply IH; lia. Qed.
Lemma file_cons : forall l ls, file_of (l :: ls) = l ++ NL :: file_of ls.
Proof. intros. unfold file_of. simpl. now rewrite <- app_assoc. Qed.
Lemma getln_pos : forall s l k, spos s l k -> k < length l -> exists s', s_getln s = (true, s') /\ spos s' l (S k) /\ sbuf s' = Some (nth k l []).
Proof.
  intros s l k (O & C & R & G) L. unfold s_getln. rewrite O, R, (skipn_nth _ l k []) by auto. rewrite file_cons.
  rewrite getln_line. 2:{ rewrite Forall_forall in G. apply G, nth_In; auto. }
  eexists. split; [reflexivity|]. split; [|reflexivity]. split; [reflexivity|]. split; [exact C|]. split; [reflexivity|exact G].
Qed.
Lemma getln_eof : forall s l, spos s l (length l) -> s_getln s = (false, s).
Proof. intros s l (O & C & R & G). unfold s_getln. rewrite O, R, skipn_all. reflexivity. Qed.
Lemma rwd_pos : forall s l k, spos s l k -> spos (s_rwd s) l 0.
Proof. intros s l k (O & C & R & G). unfold s_rwd. rewrite O. split; [reflexivity|]. split; [exact C|]. split; [exact C|exact G]. Qed.

Lemma fields_ok : forall s b is, sopen s = true -> sbuf s = Some b -> Forall (fun i => 1 <= i) is ->
  fields s is = Some (map (fun i => nth (i - 1) (blank_words b) []) is).
Proof.
  induction is as [|i is IH]; intros O B F; auto. inversion F; subst. cbn [fields map]. rewrite (IH O B) by auto.
  unfold s_dollar. rewrite O, B. destruct i as [|i]; [lia|]. rewrite dollar_words. simpl (S i - 1). rewrite Nat.sub_0_r. reflexivity.
Qed.
Lemma map_nth_seq : forall A (l : list A) d, map (fun i => nth (i - 1) l d) (seq 1 (length l)) = l.
Proof.
  intros. apply nth_ext with (d := d) (d' := d); [now rewrite map_length, seq_length|]. rewrite map_length, seq_length. intros n H.
  rewrite nth_indep with (d' := nth (0 - 1) l d) by (now rewrite map_length, seq_length).
  rewrite map_nth with (f := fun i => nth (i - 1) l d). rewrite seq_nth by auto. f_equal. lia.
Qed.
Lemma all_fields_ok : forall s b, sopen s = true -> sbuf s = Some b -> all_fields s = Some (blank_words b).
Proof.
  intros s b O B. unfold all_fields, s_NF. rewrite B, get_NF_words, (fields_ok s b) by (auto; apply Forall_forall; intros i I; apply in_seq in I; lia).
  now rewrite map_nth_seq.
Qed.
Lemma file_of_length : forall l, length l <= length (file_of l).
Proof. induction l as [|x l IH]; auto. rewrite file_cons, app_length. simpl in *. lia. Qed.

Section FILES.
Variables ls lt : list str.
Variable lc : option (list str).
Hypothesis Gs : Forall good_line ls.
Hypothesis Gt : Forall good_line lt.
Hypothesis Gc : match lc with Some l => Forall good_line l | None => True end.
Hypothesis Lt : length ls <= length lt.
Hypothesis Lc : match lc with Some l => length ls <= length l | None => True end.

(** all files positioned before line k *)
Definition cpos (h : handler) (k : nat) : Prop :=
  match lc with Some l => countFileExists h = true /\ spos (awkC h) l k | None => countFileExists h = false end.
Definition pos (h : handler) (k : nat) : Prop := spos (awkSrc h) ls k /\ spos (awkTrg h) lt k /\ cpos h k.
(** the line buffers hold line k *)
Definition bufs (h : handler) (k : nat) : Prop :=
  sbuf (awkSrc h) = Some (nth k ls []) /\ sbuf (awkTrg h) = Some (nth k lt []) /\
  match lc with Some l => sbuf (awkC h) = Some (nth k l []) | None => True end.
Definition frame (h h' : handler) : Prop := nsPairsInFiles h' = nsPairsInFiles h /\ sentPairs h' = sentPairs h.

Lemma next_ok : forall h k, pos h k -> k < length ls ->
  exists h', getNextLineFromFiles h = (true, h') /\ pos h' (S k) /\ bufs h' k /\ frame h h' /\ currFileSentIdx h' = S (currFileSentIdx h).
Proof.
  intros h k (A & B & C) L. unfold getNextLineFromFiles.
  destruct (getln_pos _ _ _ A L) as (a & Ea & Pa & Ba). rewrite Ea. cbn [negb].
  destruct (getln_pos _ _ _ B ltac:(lia)) as (b & Eb & Pb & Bb). rewrite Eb. cbn [negb].
  unfold cpos in C. unfold pos, bufs, cpos, frame. clear Gc. destruct lc as [l|].
  - destruct C as (X & C). rewrite X. destruct (getln_pos _ _ _ C ltac:(lia)) as (c & Ec & Pc & Bc). rewrite Ec. cbn [negb].
    eexists. split; [reflexivity|]. unfold set_streams; cbn [awkSrc awkTrg awkC countFileExists nsPairsInFiles sentPairs currFileSentIdx]. tauto.
  - rewrite C. eexists. split; [reflexivity|]. unfold set_streams; cbn [awkSrc awkTrg awkC countFileExists nsPairsInFiles sentPairs currFileSentIdx]. tauto.
Qed.
Lemma rewind_ok : forall h k, pos h k -> 0 < length ls ->
  pos (rewindFiles h) 1 /\ bufs (rewindFiles h) 0 /\ frame h (rewindFiles h) /\ currFileSentIdx (rewindFiles h) = 0.
Proof.
  intros h k (A & B & C) L. unfold rewindFiles.
  remember (set_streams h (s_rwd (awkSrc h)) (s_rwd (awkTrg h)) (s_rwd (awkC h)) (currFileSentIdx h)) as h1 eqn:E1.
  assert (P1 : pos h1 0).
  { subst h1. unfold pos, cpos, set_streams in *; cbn [awkSrc awkTrg awkC countFileExists]. split; [|split]; try (eapply rwd_pos; eassumption).
    destruct lc; auto. destruct C. split; auto. eapply rwd_pos; eassumption. }
  assert (F1 : frame h h1) by (subst h1; split; reflexivity).
  destruct (next_ok h1 0 P1 L) as (h2 & E & P2 & B2 & F2 & I2). rewrite E. cbn [snd].
  assert (Q : pos (set_streams h2 (awkSrc h2) (awkTrg h2) (awkC h2) 0) 1) by exact P2.
  split; [exact Q|]. split; [exact B2|]. split; [|reflexivity]. destruct F1, F2. split; simpl; congruence.
Qed.

Definition inv (h : handler) (mem : list (sentence * sentence * scount)) : Prop :=
  nsPairsInFiles h = length ls /\ sentPairs h = mem /\
  (ls = [] \/ (pos h (S (currFileSentIdx h)) /\ bufs h (currFileSentIdx h) /\ currFileSentIdx h < length ls)).

Lemma seek_ok : forall fuel n h, pos h (S (currFileSentIdx h)) -> currFileSentIdx h < n -> n < length ls -> n - currFileSentIdx h <= S fuel ->
  exists h', seek_loop fuel n h = Some h' /\ pos h' (S n) /\ bufs h' n /\ frame h h' /\ currFileSentIdx h' = n.
Proof.
  induction fuel as [|fuel IH]; intros n h P A B F; cbn [seek_loop];
    destruct (next_ok h (S (currFileSentIdx h)) P ltac:(lia)) as (h' & E & P' & B' & F' & I'); rewrite E.
  - assert (n = S (currFileSentIdx h)) by lia. rewrite I'. subst n. rewrite Nat.eqb_refl. exists h'. auto.
  - destruct (Nat.eqb_spec (currFileSentIdx h') n) as [Q|Q].
    + exists h'. rewrite I' in Q. rewrite <- I' in P', B'. rewrite <- I' in Q. rewrite Q in P', B'. auto.
    + destruct (IH n h') as (h2 & E2 & P2 & B2 & F2 & I2); try lia.
      { now rewrite I'. }
      exists h2. split; [exact E2|]. split; [exact P2|]. split; [exact B2|]. split; [|exact I2]. destruct F', F2. split; congruence.
Qed.
Definition entry (n : nat) : sentence * sentence * scount :=
  (blank_words (nth n ls []), blank_words (nth n lt []),
   match lc with Some l => Atof (hd [] (blank_words (nth n l []))) | None => Lit 1 end).
Lemma nth_files : forall h mem n, inv h mem -> n < length ls ->
  exists h', nthSentPairFromFiles n h = Some (Some (entry n), h') /\ inv h' mem.
Proof.
  intros h mem n (N & M & [Z|(P & B & I)]) L; [rewrite Z in L; simpl in L; lia|].
  unfold nthSentPairFromFiles. rewrite N. destruct (Nat.leb_spec (length ls) n); [lia|].
  remember (if n <? currFileSentIdx h then rewindFiles h else h) as h1 eqn:E1.
  assert (H1 : pos h1 (S (currFileSentIdx h1)) /\ bufs h1 (currFileSentIdx h1) /\ frame h h1 /\ currFileSentIdx h1 <= n).
  { subst h1. destruct (Nat.ltb_spec n (currFileSentIdx h)).
    - destruct (rewind_ok h _ P ltac:(lia)) as (A1 & A2 & A3 & A4). rewrite A4. auto with arith.
    - split; [auto|]. split; [auto|]. split; [split; reflexivity|auto]. }
  clear E1. destruct H1 as (P1 & B1 & F1 & I1).
  assert (H2 : exists h2, (if currFileSentIdx h1 =? n then Some h1 else seek_loop (length (srest (awkSrc h1))) n h1) = Some h2 /\
            pos h2 (S n) /\ bufs h2 n /\ frame h h2 /\ currFileSentIdx h2 = n).
  { destruct (Nat.eqb_spec (currFileSentIdx h1) n) as [Q|Q].
    - exists h1. rewrite <- Q at 1 2. auto.
    - destruct (seek_ok (length (srest (awkSrc h1))) n h1) as (h2 & E2 & P2 & B2 & F2 & I2); auto; try lia.
      + destruct P1 as ((_ & _ & R & _) & _). rewrite R. pose proof (file_of_length (skipn (S (currFileSentIdx h1)) ls)) as G. rewrite skipn_length in G. lia.
      + exists h2. split; [exact E2|]. split; [exact P2|]. split; [exact B2|]. split; [|exact I2]. destruct F1, F2. split; congruence. }
  destruct H2 as (h2 & E2 & P2 & B2 & F2 & I2). rewrite E2. destruct B2 as (Bs & Bt & Bc). pose proof P2 as ((Os & _) & (Ot & _) & C).
  rewrite (all_fields_ok _ _ Os Bs), (all_fields_ok _ _ Ot Bt). exists h2. split.
  - unfold entry. unfold cpos in C. clear P2. destruct lc as [l|].
    + destruct C as (X & (Oc & _)). rewrite X. unfold s_dollar. rewrite Oc, Bc, dollar_words.
      unfold blank_words. f_equal. f_equal. f_equal. f_equal. f_equal. now destruct (words _ _).
    + now rewrite C.
  - destruct F2 as (F2 & F3). split; [congruence|]. split; [congruence|]. right. rewrite I2. split; auto. split; auto. split; auto.
Qed.
Definition file_corpus : list (sentence * sentence * scount) := map entry (seq 0 (length ls)).
Lemma corpus_nth : forall n, nth_error file_corpus n = if n <? length ls then Some (entry n) else None.
Proof.
  intro n. unfold file_corpus. destruct (Nat.ltb_spec n (length ls)).
  - rewrite nth_error_map. rewrite (nth_error_nth' _ 0) by (now rewrite seq_length). now rewrite seq_nth by auto.
  - apply nth_error_None. now rewrite map_length, seq_length.
Qed.
Lemma corpus_len : length file_corpus = length ls.
Proof. unfold file_corpus. now rewrite map_length, seq_length. Qed.
Lemma nth_pair : forall h mem n, inv h mem -> exists h', nthSentPair n h = Some (nth_error (file_corpus ++ mem) n, h') /\ inv h' mem.
Proof.
  intros h mem n V. pose proof V as (N & M & _). unfold nthSentPair, numSentPairs. rewrite N, M.
  destruct (Nat.leb_spec (length ls + length mem) n).
  - exists h. split; auto. assert (E : nth_error (file_corpus ++ mem) n = None) by (apply nth_error_None; rewrite app_length, corpus_len; lia). now rewrite E.
  - destruct (Nat.ltb_spec n (length ls)) as [L|L].
    + destruct (nth_files h mem n V L) as (h' & E & V'). exists h'. rewrite E. rewrite nth_error_app1 by (now rewrite corpus_len).
      rewrite corpus_nth. destruct (Nat.ltb_spec n (length ls)); [auto|lia].
    + rewrite nth_error_app2 by (now rewrite corpus_len). rewrite corpus_len. destruct (nth_error mem (n - length ls)) eqn:E; [eauto|].
      apply nth_error_None in E. lia.
Qed.
Lemma run_ok : forall ops h mem, inv h mem -> sh_run ops h = Some (sh_spec ops (file_corpus ++ mem)).
Proof.
  induction ops as [|[n|s t c|] ops IH]; intros h mem V; auto; cbn [sh_run sh_spec].
  - destruct (nth_pair h mem n V) as (h' & E & V'). rewrite E, (IH h' mem V'). reflexivity.
  - unfold addSentPair. pose proof V as (N & M & R).
    rewrite (IH _ (mem ++ [(s, t, c)])).
    + cbn [option_map fst snd]. rewrite N, M, app_length, corpus_len, app_assoc. reflexivity.
    + split; [exact N|]. split; [cbn [sentPairs]; now rewrite M|exact R].
  - rewrite (IH h mem V). unfold numSentPairs. destruct V as (N & M & _). rewrite N, M, app_length, corpus_len. reflexivity.
Qed.
End FILES.

(** ** reading *)
Lemma count_ok : forall ls lt, Forall good_line ls -> Forall good_line lt -> forall fuel k a b, spos a ls k -> spos b lt k -> k <= length ls -> k <= length lt -> length ls - k <= fuel ->
  exists a' b' k', count_loop fuel a b k = Some (length ls <=? length lt, a', b', k') /\
    (length ls <= length lt -> spos a' ls (length ls) /\ spos b' lt (length ls) /\ k' = length ls).
Proof.
  intros ls lt Gs Gt. induction fuel as [|fuel IH]; intros k a b A B K1 K2 F; cbn [count_loop].
  - assert (k = length ls) by lia. subst k. rewrite (getln_eof _ _ A). destruct (Nat.leb_spec (length ls) (length lt)); [|lia].
    exists a, b, (length ls). auto.
  - destruct (Nat.eq_dec k (length ls)) as [E|E].
    + subst k. rewrite (getln_eof _ _ A). destruct (Nat.leb_spec (length ls) (length lt)); [|lia]. exists a, b, (length ls). auto.
    + destruct (getln_pos _ _ _ A ltac:(lia)) as (a1 & Ea & Pa & _). rewrite Ea. destruct (Nat.eq_dec k (length lt)) as [E2|E2].
      * subst k. rewrite (getln_eof _ _ B). exists a1, b, (length lt). destruct (Nat.leb_spec (length ls) (length lt)); [lia|]. split; auto. lia.
      * destruct (getln_pos _ _ _ B ltac:(lia)) as (b1 & Eb & Pb & _). rewrite Eb. apply IH; auto; lia.
Qed.
Lemma open_pos : forall l s, Forall good_line l -> spos (s_open (file_of l) s) l 0.
Proof. intros. split; [reflexivity|]. split; [reflexivity|]. split; auto. Qed.
Lemma read_gen : forall ls lt lc h, Forall good_line ls -> Forall good_line lt -> match lc with Some l => Forall good_line l | None => True end ->
  length ls <= length lt -> match lc with Some l => length ls <= length l | None => True end ->
  exists h', readSentencePairs (file_of ls) (file_of lt) (option_map file_of lc) h =
             Some (true, (0%Z, Some ((Z.of_nat (length ls) - 1) mod 2^32)%Z), h') /\ inv ls lt lc h' [].
Proof.
  intros ls lt lc h Gs Gt Gc Lt Lc. unfold readSentencePairs.
  destruct (count_ok ls lt Gs Gt (length (file_of ls)) 0 (s_open (file_of ls) (awkSrc (sh_clear h))) (s_open (file_of lt) (awkTrg (sh_clear h))))
    as (a & b & k & E & P); try (apply open_pos; auto); try lia.
  { pose proof (file_of_length ls). lia. }
  rewrite E. destruct (Nat.leb_spec (length ls) (length lt)); [|lia]. destruct (P ltac:(auto)) as (Pa & Pb & ->). eexists. split; [reflexivity|].
  match goal with |- inv _ _ _ (rewindFiles ?x) _ => remember x as h1 eqn:E1 end.
  assert (N1 : nsPairsInFiles h1 = length ls /\ sentPairs h1 = []) by (subst h1; split; reflexivity).
  destruct ls as [|l0 ls0].
  - split; [|split; [|now left]].
    + destruct N1 as (N1 & _). rewrite <- N1. clear. unfold rewindFiles, getNextLineFromFiles. destruct (s_getln _) as [[] ?]; cbn [negb]; [|reflexivity].
      destruct (s_getln _) as [[] ?]; cbn [negb]; [|reflexivity]. match goal with |- context [if ?c then _ else _] => destruct c end; [|reflexivity]. destruct (s_getln _) as [[] ?]; reflexivity.
    + destruct N1 as (_ & N1). rewrite <- N1. clear. unfold rewindFiles, getNextLineFromFiles. destruct (s_getln _) as [[] ?]; cbn [negb]; [|reflexivity].
      destruct (s_getln _) as [[] ?]; cbn [negb]; [|reflexivity]. match goal with |- context [if ?c then _ else _] => destruct c end; [|reflexivity]. destruct (s_getln _) as [[] ?]; reflexivity.
  - remember (l0 :: ls0) as ls. assert (0 < length ls) by (subst ls; simpl; lia).
    assert (R : forall l s j, spos s l j -> spos (s_rwd s) l 0) by (intros; eapply rwd_pos; eauto).
    (* all three streams can be rewound *)
    assert (Q : pos ls lt lc (set_streams h1 (s_rwd (awkSrc h1)) (s_rwd (awkTrg h1)) (s_rwd (awkC h1)) (currFileSentIdx h1)) 0).
    { subst h1. unfold pos, cpos, set_streams. cbn [awkSrc awkTrg awkC countFileExists]. split; [eapply R; eauto|]. split; [eapply R; eauto|].
      destruct lc as [l|]; [|reflexivity]. split; [reflexivity|]. cbn [option_map]. apply R with (j := 0). apply open_pos. auto. }
    unfold rewindFiles. destruct (next_ok ls lt lc Lt Lc _ 0 Q ltac:(lia)) as (h2 & E2 & P2 & B2 & F2 & I2). rewrite E2. cbn [snd].
    destruct F2 as (F2 & F3). destruct N1 as (N1 & N2). split; [cbn [set_streams nsPairsInFiles] in *; congruence|].
    split; [cbn [set_streams sentPairs] in *; congruence|]. right. cbn [set_streams currFileSentIdx]. split; [exact P2|]. split; [exact B2|lia].
Qed.
Lemma read_short : forall ls lt fc h, Forall good_line ls -> Forall good_line lt -> length lt < length ls ->
  exists h', readSentencePairs (file_of ls) (file_of lt) fc h = Some (false, (0%Z, None), h').
Proof.
  intros ls lt fc h Gs Gt L. unfold readSentencePairs.
  destruct (count_ok ls lt Gs Gt (length (file_of ls)) 0 (s_open (file_of ls) (awkSrc (sh_clear h))) (s_open (file_of lt) (awkTrg (sh_clear h))))
    as (a & b & k & E & P); try (apply open_pos; auto); try lia.
  { pose proof (file_of_length ls). lia. }
  rewrite E. destruct (Nat.leb_spec (length ls) (length lt)); [lia|]. eauto.
Qed.
Lemma corpus_none : forall ls lt, length ls <= length lt -> file_corpus ls lt None = corpus_of ls lt.
Proof.
  intros ls lt. unfold file_corpus. revert lt. induction ls as [|s ls IH]; intros [|t lt] L; simpl in *; try lia; auto.
  f_equal. rewrite <- IH by lia. rewrite <- seq_shift, map_map. reflexivity.
Qed.
Lemma corpus_some : forall ls lt lc, length ls <= length lt -> length ls <= length lc -> file_corpus ls lt (Some lc) = corpus_counts ls lt lc.
Proof.
  intros ls lt. unfold file_corpus. revert lt. induction ls as [|s ls IH]; intros [|t lt] [|c lc] L L2; simpl in *; try lia; auto.
  f_equal. rewrite <- IH by lia. rewrite <- seq_shift, map_map. reflexivity.
Qed.
Lemma handler_none : forall ls lt h ops, Forall good_line ls -> Forall good_line lt -> length ls <= length lt ->
  exists h', readSentencePairs (file_of ls) (file_of lt) None h = Some (true, (0%Z, Some ((Z.of_nat (length ls) - 1) mod 2^32)%Z), h') /\
             sh_run ops h' = Some (sh_spec ops (corpus_of ls lt)).
Proof.
  intros. destruct (read_gen ls lt None h) as (h' & E & V); auto. exists h'. split; [exact E|].
  rewrite (run_ok ls lt None) with (mem := []); auto. now rewrite corpus_none, app_nil_r.
Qed.
Lemma handler_counts : forall ls lt lc h ops, Forall good_line ls -> Forall good_line lt -> Forall good_line lc -> length ls <= length lt -> length ls <= length lc ->
  exists h', readSentencePairs (file_of ls) (file_of lt) (Some (file_of lc)) h = Some (true, (0%Z, Some ((Z.of_nat (length ls) - 1) mod 2^32)%Z), h') /\
             sh_run ops h' = Some (sh_spec ops (corpus_counts ls lt lc)).
Proof.
  intros. destruct (read_gen ls lt (Some lc) h) as (h' & E & V); auto. exists h'. split; [exact E|].
  rewrite (run_ok ls lt (Some lc)) with (mem := []); auto. now rewrite corpus_some, app_nil_r.
Qed.
