From Coq Require Import Reals NArith Arith List Bool Sorted Permutation Lra Lia.
From Verif Require Import AMap LogNum LogNumProofs RSums Ibm1Spec Ibm1Model Ibm1TrainProofs Ibm2Spec Ibm2Model NdProofs NdTrain Ibm2TrainProofs MrModel MrSpec MrProofs MrTableProofs MrTrainModel.
Import ListNotations.
Open Scope R_scope.
Lemma ord_word : total_order lt_word.
Proof. unfold lt_word. split; [intros; apply N.ltb_irrefl|]. split; [intros a b c; rewrite !N.ltb_lt; lia|intros a b; rewrite !N.ltb_ge; lia]. Qed.
Lemma ord_pos : total_order lt_pos.
Proof. unfold lt_pos. split; [intros; apply Nat.ltb_irrefl|]. split; [intros a b c; rewrite !Nat.ltb_lt; lia|intros a b; rewrite !Nat.ltb_ge; lia]. Qed.
Ltac ltb_all := repeat match goal with |- context [Nat.ltb ?a ?b] => destruct (Nat.ltb_spec a b) end.
Lemma ord_asource : total_order lt_asource.
Proof.
  split; [|split].
  - intros [[j l] m]. unfold lt_asource. ltb_all; lia || reflexivity.
  - intros [[j l] m] [[j' l'] m'] [[j'' l''] m'']. unfold lt_asource. ltb_all; try reflexivity; try discriminate; lia.
  - intros [[j l] m] [[j' l'] m']. unfold lt_asource. ltb_all; try discriminate; intros; assert (j = j' /\ l = l' /\ m = m') as (-> & -> & ->) by lia; reflexivity.
Qed.
Lemma ord_asourcehmm : total_order lt_asourcehmm.
Proof.
  split; [|split].
  - intros [l m]. unfold lt_asourcehmm. ltb_all; lia || reflexivity.
  - intros [l m] [l' m'] [l'' m'']. unfold lt_asourcehmm. ltb_all; try reflexivity; try discriminate; lia.
  - intros [l m] [l' m']. unfold lt_asourcehmm. ltb_all; try discriminate; intros; assert (l = l' /\ m = m') as (-> & ->) by lia; reflexivity.
Qed.
(** ---- counts of a list of sentence pairs *)
Definition use (p : pair) : bool := sentenceLengthIsOk (src p) && sentenceLengthIsOk (trg p).
Section CNT.
Context {K1 K2 : Type}.
Variable d1 : forall a b : K1, {a = b} + {a <> b}.
Variable d2 : forall a b : K2, {a = b} + {a <> b}.
Variable kf : pair -> nat * nat -> K1 * K2.
Definition contrib (E : em2) (k : K1 * K2) (p : pair) : R := if use p then gcount d1 d2 kf p (new2 (ltb E) (atb E) p) k else 0.
Definition tabof (E : em2) (D : list pair) (T : ndtab K1 K2) : Prop :=
  tab_inv d1 d2 T /\ (forall s t, numv d1 d2 T s t = sumf (contrib E (s, t)) D) /\ (forall s t, getNumer d1 d2 T s t <> None <-> exists p, In p D /\ usable p /\ gocc d1 d2 kf p (s, t) <> []).
Lemma holds_tabof : forall D E T, holds d1 d2 kf D T (batch_ex D (seq 0 (length D)) E) -> tabof E D T.
Proof.
  intros D E T [Iv Hn Hh]. split; [exact Iv|]. split.
  - intros s t. rewrite Hn. unfold gcounts. rewrite (ex_sum D (seq 0 (length D)) E (fun n m => gcount d1 d2 kf (nth n D no_pair) m (s, t))) by (apply seq_NoDup || (intros n X; apply in_seq in X; lia)).
    unfold training_set. rewrite sumf_filter, (sum_by_nth (contrib E (s, t)) D no_pair). apply sumf_ext. intros n _. unfold contrib. set (p := nth n D no_pair).
    match goal with |- (if ?c then _ else _) = _ => assert (X : c = use p) end; [|rewrite X; reflexivity]. apply eq_true_iff_eq. unfold use. rewrite len_ok, !andb_true_iff, !Nat.leb_le. unfold usable. tauto.
  - intros s t. rewrite Hh. split.
    + intros (n & A & B). exists (nth n D no_pair). unfold batch_ex in A. destruct (in_dec _ _ _) as [I|]; [|congruence]. apply training_set_in in I as [I1 I2]. apply in_seq in I1. split; [apply nth_In; lia|]. split; assumption.
    + intros (p & A & B & C). apply (In_nth _ _ no_pair) in A as (n & Hn' & <-). exists n. split; [|exact C]. unfold batch_ex. destruct (in_dec _ _ _) as [I|I]; [discriminate|]. exfalso. apply I, training_set_in. split; [apply in_seq; lia|exact B].
Qed.
Lemma tabof_ext : forall E M D T, (forall p, In p D -> usable p -> new2 (ltb M) (atb M) p = new2 (ltb E) (atb E) p) -> tabof M D T -> tabof E D T.
Proof.
  intros E M D T H (A & B & C). split; [exact A|]. split; [|exact C]. intros s t. rewrite B. apply sumf_ext. intros p Hp. unfold contrib. destruct (use p) eqn:U; [|reflexivity]. rewrite H; [reflexivity|exact Hp|]. apply len_ok, U.
Qed.
Lemma tabof_concat : forall E Ds Ts T, Forall2 (tabof E) Ds Ts -> tabof E (concat Ds) T ->
  (forall s t, numv d1 d2 T s t = sumf (fun Ti => numv d1 d2 Ti s t) Ts) /\ (forall s t, getNumer d1 d2 T s t <> None <-> exists Ti, In Ti Ts /\ getNumer d1 d2 Ti s t <> None).
Proof.
  intros E Ds Ts T F (_ & B & C). split.
  - intros s t. rewrite B. clear -F. induction F as [|D Ti Ds Ts (_ & H & _) F IH]; [reflexivity|]. cbn [concat sumf]. rewrite sumf_app, IH, H. reflexivity.
  - intros s t. rewrite C. clear -F. induction F as [|D Ti Ds Ts (_ & _ & H) F IH]; [split; [intros (? & [] & _)|intros (? & [] & _)]|]. cbn [concat]. split.
    + intros (p & P1 & P2). apply in_app_or in P1 as [P1|P1]; [exists Ti; split; [left; reflexivity|apply H; eauto]|]. destruct (proj1 IH) as (z & Z1 & Z2); [eauto|]. exists z. split; [right; exact Z1|exact Z2].
    + intros (x & [<-|X] & Y); [apply H in Y as (p & P1 & P2); exists p; split; [apply in_or_app; left; exact P1|exact P2]|]. destruct (proj2 IH) as (z & Z1 & Z2); [eauto|]. exists z. split; [apply in_or_app; right; exact Z1|exact Z2].
Qed.
End CNT.
Notation ltabof := (tabof N.eq_dec N.eq_dec kfl).
Notation atabof := (tabof aposdec Nat.eq_dec kfa).
Definition wpos (D : list pair) : Prop := forall p, In p D -> usable p -> 0 < weight p.
Lemma batch_tab : forall D E, wpos D -> ltabof E D (ltb (batch_round D E)) /\ atabof E D (atb (batch_round D E)).
Proof.
  intros D E W. destruct (batch2 D (seq 0 (length D)) E W (seq_NoDup _ _)) as [A B]; [intros n X; apply in_seq in X; lia|]. split; apply holds_tabof; assumption.
Qed.
Lemma new2_ext : forall L L' A A' p, (forall j i, (j < length (trg p))%nat -> (i < length (with_null (src p)))%nat ->
    seen_prob N.eq_dec N.eq_dec ARBITRARY_PTS L (nth i (with_null (src p)) 0%N) (nth j (trg p) 0%N) = seen_prob N.eq_dec N.eq_dec ARBITRARY_PTS L' (nth i (with_null (src p)) 0%N) (nth j (trg p) 0%N)) ->
  (forall k i, seen_prob aposdec Nat.eq_dec ARBITRARY_AP A k i = seen_prob aposdec Nat.eq_dec ARBITRARY_AP A' k i) -> new2 L A p = new2 L' A' p.
Proof.
  intros L L' A A' p H1 H2. unfold new2, anji_aux2. apply map_ext_in. intros j Hj. apply in_seq in Hj. unfold anji_row2.
  assert (X : map (fun i => smooth_num (calc_anji_num2 L A (with_null (src p)) (trg p) i j)) (seq 0 (length (with_null (src p)))) = map (fun i => smooth_num (calc_anji_num2 L' A' (with_null (src p)) (trg p) i j)) (seq 0 (length (with_null (src p))))).
  { apply map_ext_in. intros i Hi. apply in_seq in Hi. unfold calc_anji_num2. rewrite H1, H2 by lia. reflexivity. }
  rewrite X. reflexivity.
Qed.
(** counts of all chunks, merged: the same as the table T of the whole corpus *)
Definition same_table {K1 K2} (lt1 : K1 -> K1 -> bool) (lt2 : K2 -> K2 -> bool) d1 d2 (f : list (rec K1 K2)) (T : ndtab K1 K2) : Prop :=
  strictly_sorted lt1 lt2 f /\ consistent f /\ (forall s t, getNumer d1 d2 (load_table d1 d2 f) s t <> None <-> getNumer d1 d2 T s t <> None) /\ (forall s t, has f s t <-> getNumer d1 d2 T s t <> None) /\
  forall s t, prob d1 d2 (load_table d1 d2 f) s t = prob d1 d2 T s t.
Lemma merged_same : forall {K1 K2} (lt1 : K1 -> K1 -> bool) (lt2 : K2 -> K2 -> bool) d1 d2 kf E Ds Ts gs (T : ndtab K1 K2) out, total_order lt1 -> total_order lt2 ->
  Forall2 (tabof d1 d2 kf E) Ds Ts -> tabof d1 d2 kf E (concat Ds) T -> Forall2 (fun Ti g => exists f, print_table d1 Ti f /\ sort_tool lt1 lt2 f g) Ts gs ->
  merge_tool lt1 lt2 d1 d2 gs (Some out) -> same_table lt1 lt2 d1 d2 out T.
Proof.
  intros K1 K2 lt1 lt2 d1 d2 kf E Ds Ts gs T out O1 O2 F Tt P M. destruct (tabof_concat _ _ _ _ _ _ _ F Tt) as [V Hn].
  assert (F' : Forall2 (fun Ti g => tab_inv d1 d2 Ti /\ exists f, print_table d1 Ti f /\ sort_tool lt1 lt2 f g) Ts gs).
  { clear -F P. revert Ds F. induction P as [|Ti g Ts gs H P IH]; intros Ds F; [constructor|]. inversion F as [|? ? ? ? F1 F2]; subst. constructor; [split; [apply F1|exact H]|eapply IH; eauto]. }
  destruct (merged lt1 lt2 d1 d2 O1 O2 Ts gs T out F' (proj1 Tt) V Hn M) as (S1 & C1 & H1 & V1 & D1).
  assert (Q := load_ok lt1 lt2 d1 d2 O1 O2 out S1 C1). split; [exact S1|]. split; [exact C1|]. split; [|split; [exact H1|]].
  - intros s t. rewrite (proj1 (Q s t)). apply H1.
  - intros s t. rewrite (proj2 (Q s t)), V1, D1. symmetry. apply prob_val, Tt.
Qed.
Lemma in_gocc : forall p j i, (j < length (trg p))%nat -> (i < length (with_null (src p)))%nat -> gocc N.eq_dec N.eq_dec kfl p (nth i (with_null (src p)) 0%N, nth j (trg p) 0%N) <> [].
Proof.
  intros p j i Hj Hi E. assert (X : In (j, i) (gocc N.eq_dec N.eq_dec kfl p (nth i (with_null (src p)) 0%N, nth j (trg p) 0%N))); [|rewrite E in X; destruct X].
  unfold gocc. apply filter_In. split.
  - unfold pos_of, positions. apply in_flat_map. exists j. split; [apply in_seq; lia|]. apply in_map_iff. exists i. split; [reflexivity|apply in_seq; lia].
  - unfold kfl. cbn [fst snd]. destruct (pd _ _ _ _); congruence.
Qed.
Definition rounds (n : nat) (D : list pair) (E0 : em2) : em2 := Nat.iter n (batch_round D) E0.
Definition info_ok (D : list pair) (info : list (N * N)) : Prop :=
  StronglySorted (kltk lt_word lt_word) info /\ forall s t, In (s, t) info <-> exists p, In p D /\ usable p /\ gocc N.eq_dec N.eq_dec kfl p (s, t) <> [].
Lemma chunk_tables : forall E Ms Ds files, Forall2 (fun dm fa => chunk_counts (fst dm) (snd dm) (fst fa) (snd fa)) (combine Ds Ms) files -> length Ms = length Ds -> wpos (concat Ds) ->
  Forall2 (fun D M => forall p, In p D -> usable p -> new2 (ltb M) (atb M) p = new2 (ltb E) (atb E) p) Ds Ms ->
  exists Ts As, Forall2 (ltabof E) Ds Ts /\ Forall2 (atabof E) Ds As /\ Forall2 (fun Ti g => exists f, print_table N.eq_dec Ti f /\ sort_tool lt_word lt_word f g) Ts (map fst files) /\
    Forall2 (fun Ti g => exists f, print_table aposdec Ti f /\ sort_tool lt_asource lt_pos f g) As (map snd files) /\ Forall2 info_ok Ds (map (fun fa => gen_filter_info (fst fa)) files).
Proof.
  intros E Ms Ds. revert Ms. induction Ds as [|D Ds IH]; intros Ms files F Lm W H.
  - destruct Ms; [|discriminate]. inversion F; subst. exists [], []. repeat split; constructor.
  - destruct Ms as [|M Ms]; [discriminate|]. cbn [combine] in F. inversion F as [|? fa ? files' F1 F2]; subst. inversion H as [|? ? ? ? H1 H2]; subst. destruct F1 as (l & a & P1 & P2 & P3 & P4). cbn [fst snd] in *.
    destruct (IH Ms files' F2) as (Ts & As & A1 & A2 & A3 & A4 & A5); [cbn in Lm; congruence|intros p Hp; apply W; cbn [concat]; apply in_or_app; right; exact Hp|exact H2|].
    destruct (batch_tab D M) as [B1 B2]; [intros p Hp; apply W; cbn [concat]; apply in_or_app; left; exact Hp|]. apply (tabof_ext _ _ _ E M D _ H1) in B1, B2.
    exists (ltb (batch_round D M) :: Ts), (atb (batch_round D M) :: As). cbn [map]. split; [constructor; assumption|]. split; [constructor; assumption|]. split; [constructor; [eauto|assumption]|]. split; [constructor; [eauto|assumption]|].
    constructor; [|exact A5]. destruct (listing lt_word lt_word N.eq_dec N.eq_dec ord_word ord_word _ _ _ (proj1 B1) P1 P2) as (S1 & _ & Hh & _). split; [apply listing_filter_sorted, S1|]. intros s t. destruct B1 as (_ & _ & B1). rewrite <- B1, <- Hh. unfold gen_filter_info. rewrite in_map_iff. unfold has. split.
    + intros (r & E1 & E2). exists r. inversion E1. auto. + intros (r & E1 & <- & <-). eauto.
Qed.
Theorem mr_ok : forall Ds E0 n infos lex alig, wpos (concat Ds) -> mr Ds E0 n infos lex alig -> (1 <= n)%nat /\ Forall2 info_ok Ds infos /\
  same_table lt_word lt_word N.eq_dec N.eq_dec lex (ltb (rounds n (concat Ds) E0)) /\ same_table lt_asource lt_pos aposdec Nat.eq_dec alig (atb (rounds n (concat Ds) E0)).
Proof.
  intros Ds E0 n infos lex alig W H. induction H as [files lex alig F [M1 M2]|n infos lex alig files lex' alig' H IH F [M1 M2]].
  - split; [lia|]. assert (F' : Forall2 (fun dm fa => chunk_counts (fst dm) (snd dm) (fst fa) (snd fa)) (combine Ds (map (fun _ => E0) Ds)) files).
    { clear -F. induction F; cbn; constructor; assumption. }
    destruct (chunk_tables E0 _ _ _ F' (map_length _ _) W) as (Ts & As & A1 & A2 & A3 & A4 & A5); [clear; induction Ds; cbn; constructor; [reflexivity|assumption]|].
    destruct (batch_tab (concat Ds) E0 W) as [B1 B2]. split; [exact A5|]. cbn [rounds Nat.iter]. split; eapply merged_same; eauto using ord_word, ord_asource, ord_pos.
  - destruct IH as (Hn & If & (S1 & C1 & G1 & H1 & P1) & (S2 & C2 & G2 & H2 & P2)). set (E := rounds n (concat Ds) E0) in *. split; [lia|].
    assert (Ek : forall s t, getNumer N.eq_dec N.eq_dec (ltb E) s t <> None <-> exists p, In p (concat Ds) /\ usable p /\ gocc N.eq_dec N.eq_dec kfl p (s, t) <> []).
    { destruct n as [|m]; [lia|]. unfold E, rounds. cbn [Nat.iter]. apply batch_tab, W. }
    set (Ms := map (fun info => load_model (filter_tool N.eq_dec N.eq_dec lex info) alig) infos).
    assert (F' : Forall2 (fun dm fa => chunk_counts (fst dm) (snd dm) (fst fa) (snd fa)) (combine Ds Ms) files).
    { unfold Ms. clear -F. revert Ds files F. induction infos as [|i infos IH]; intros Ds files F; [destruct Ds; cbn in *; inversion F; constructor|]. destruct Ds as [|D Ds]; cbn in *; [inversion F; constructor|]. inversion F; subst. constructor; [assumption|apply IH; assumption]. }
    assert (Lm : length Ms = length Ds) by (unfold Ms; rewrite map_length; clear -If; induction If; cbn; congruence).
    assert (Nw : Forall2 (fun D M => forall p, In p D -> usable p -> new2 (ltb M) (atb M) p = new2 (ltb E) (atb E) p) Ds Ms).
    { unfold Ms. assert (Sub : forall p D, In D Ds -> In p D -> In p (concat Ds)) by (intros p D X Y; apply in_concat; eauto). clear F F' Lm Ms M1 M2 H.
      assert (Key : forall D info p, info_ok D info -> (forall q, In q D -> In q (concat Ds)) -> In p D -> usable p -> new2 (ltb (load_model (filter_tool N.eq_dec N.eq_dec lex info) alig)) (atb (load_model (filter_tool N.eq_dec N.eq_dec lex info) alig)) p = new2 (ltb E) (atb E) p).
      { intros D info p [Is Ik] Sb Hp Up. cbn [load_model ltb atb]. apply new2_ext.
        - intros j i Hj Hi. pose proof (in_gocc p j i Hj Hi) as Go. set (s := nth i (with_null (src p)) 0%N) in *. set (t := nth j (trg p) 0%N) in *.
          assert (In (s, t) info) as Ii by (apply Ik; eauto).
          assert (Inc : forall k, In k info -> In k (map key lex)). { intros [s' t'] K. apply Ik in K as (q & Q1 & Q2). assert (X : getNumer N.eq_dec N.eq_dec (ltb E) s' t' <> None) by (apply Ek; exists q; split; [apply Sb, Q1|exact Q2]). apply H1 in X as (r & R1 & R2 & R3). apply in_map_iff. exists r. unfold key. split; [congruence|exact R1]. }
          destruct (filter_prob lt_word lt_word N.eq_dec N.eq_dec ord_word ord_word lex info s t S1 C1 Is Inc Ii) as [X1 X2]. assert (Y : getNumer N.eq_dec N.eq_dec (ltb E) s t <> None) by (apply Ek; exists p; auto).
          unfold seen_prob. rewrite X2, P1. destruct (getNumer _ _ (load_table _ _ (filter_tool _ _ lex info)) s t); [|congruence]. destruct (getNumer _ _ (ltb E) s t); [reflexivity|congruence].
        - intros k i. unfold seen_prob. specialize (G2 k i). rewrite P2. destruct (getNumer _ _ (load_table _ _ alig) k i) eqn:Q1, (getNumer _ _ (atb E) k i) eqn:Q2; try reflexivity; exfalso; [refine (proj1 G2 _ Q2); intros Z; pose proof (eq_trans (eq_sym Q1) Z)|refine (proj2 G2 _ Q1); intros Z; pose proof (eq_trans (eq_sym Q2) Z)]; discriminate. }
      clearbody E. clear -If Key Sub. assert (Sub' : forall D, In D Ds -> forall q, In q D -> In q (concat Ds)) by eauto. clear Sub. revert Key Sub'. generalize (concat Ds) as all. intros all Key Sub. induction If as [|D info Ds infos I1 If IH]; cbn; constructor.
      - intros p Hp Up. eapply Key; eauto. apply Sub. left; reflexivity.
      - apply IH. intros D' X. apply Sub. right; exact X. }
    destruct (chunk_tables E _ _ _ F' Lm W Nw) as (Ts & As & A1 & A2 & A3 & A4 & A5). destruct (batch_tab (concat Ds) E W) as [B1 B2]. split; [exact If|].
    change (rounds (S n) (concat Ds) E0) with (batch_round (concat Ds) E). split; eapply merged_same; eauto using ord_word, ord_asource, ord_pos.
Qed.
(** ---- every run can be carried out *)
Section EX.
Context {K1 K2 : Type}.
Variable lt1 : K1 -> K1 -> bool.
Variable lt2 : K2 -> K2 -> bool.
Hypothesis O1 : total_order lt1.
Hypothesis O2 : total_order lt2.
Lemma after_total : forall a b : rec K1 K2, after lt1 lt2 a b = true -> after lt1 lt2 b a = false.
Proof.
  intros a b A. apply after_false; [assumption..|]. left. unfold after in A. unfold klt. destruct (lt1 (rs b) (rs a)) eqn:A1; [tauto|]. destruct (lt1 (rs a) (rs b)) eqn:A2; [discriminate|]. right. split; [apply (proj2 (proj2 O1)); assumption|].
  destruct (lt2 (rt b) (rt a)); [reflexivity|destruct (lt2 (rt a) (rt b)); discriminate].
Qed.
Lemma insert_ex : forall (a : rec K1 K2) g, lefile lt1 lt2 g -> exists g', Permutation (a :: g) g' /\ lefile lt1 lt2 g'.
Proof.
  intros a g S0. induction S0 as [|b g S0 IH F]; [exists [a]; split; [reflexivity|repeat constructor]|]. rewrite Forall_forall in F. destruct (after lt1 lt2 a b) eqn:E.
  - destruct IH as (g' & P & S'). exists (b :: g'). split; [eapply Permutation_trans; [apply perm_swap|]; apply perm_skip, P|]. constructor; [exact S'|]. rewrite Forall_forall. intros x X. apply (Permutation_in _ (Permutation_sym P)) in X as [<-|X]; [apply after_total, E|apply F, X].
  - exists (a :: b :: g). split; [reflexivity|]. constructor; [constructor; [exact S0|rewrite Forall_forall; exact F]|]. rewrite Forall_forall. intros x [<-|X]; [exact E|]. eapply (after_trans lt1 lt2 O1 O2); [exact E|apply F, X].
Qed.
Lemma sort_ex : forall f : list (rec K1 K2), exists g, sort_tool lt1 lt2 f g.
Proof.
  induction f as [|a f (g & P & S0)]; [exists []; split; constructor|]. destruct (insert_ex a g S0) as (g' & P' & S'). exists g'. split; [|exact S']. eapply Permutation_trans; [|exact P']. apply perm_skip, P.
Qed.
End EX.
Lemma chunk_ex : forall D E, exists fa, chunk_counts D E (fst fa) (snd fa).
Proof.
  intros D E. destruct (sort_ex lt_word lt_word ord_word ord_word (map (fun e => {| rs := fst (fst e); rt := snd (fst e); rn := snd e; rd := denom_or_zero N.eq_dec (ltb (batch_round D E)) (fst (fst e)) |}) (ndn (ltb (batch_round D E))))) as [g G].
  destruct (sort_ex lt_asource lt_pos ord_asource ord_pos (map (fun e => {| rs := fst (fst e); rt := snd (fst e); rn := snd e; rd := denom_or_zero aposdec (atb (batch_round D E)) (fst (fst e)) |}) (ndn (atb (batch_round D E))))) as [h H].
  exists (g, h). unfold chunk_counts. eexists. eexists. split; [apply Permutation_refl|]. split; [exact G|]. split; [apply Permutation_refl|exact H].
Qed.
Lemma files_ex : forall {A} (P : A -> list lexrec * list aligrec -> Prop) l, (forall a, exists fa, P a fa) -> exists files, Forall2 P l files.
Proof. intros A P l H. induction l as [|a l (fs & F)]; [exists []; constructor|]. destruct (H a) as [fa Pf]. exists (fa :: fs). constructor; assumption. Qed.
Lemma kfa_occ : forall p, usable p -> gocc N.eq_dec N.eq_dec kfl p (0%N, nth 0 (trg p) 0%N) <> [] /\ gocc aposdec Nat.eq_dec kfa p ((1%nat, length (src p), length (trg p)), 0%nat) <> [].
Proof.
  intros p [_ U]. split; [apply (in_gocc p 0 0); cbn; lia|]. intros E. assert (X : In (0%nat, 0%nat) (gocc aposdec Nat.eq_dec kfa p ((1%nat, length (src p), length (trg p)), 0%nat))); [|rewrite E in X; destruct X].
  unfold gocc. apply filter_In. split.
  - unfold pos_of, positions. apply in_flat_map. exists 0%nat. split; [apply in_seq; lia|]. apply in_map_iff. exists 0%nat. split; [reflexivity|apply in_seq; cbn; lia].
  - unfold kfa. cbn [fst snd]. change (pred (length (with_null (src p)))) with (length (src p)). destruct (pd _ _ _ _) as [|N]; [reflexivity|exfalso; apply N; reflexivity].
Qed.
Theorem mr_runs : forall Ds E0 n p, wpos (concat Ds) -> In p (concat Ds) -> usable p -> exists infos lex alig, mr Ds E0 (S n) infos lex alig.
Proof.
  intros Ds E0 n p W Hp U. destruct (kfa_occ p U) as [Gl Ga].
  assert (Fin1 : forall Ms files, length Ms = length Ds -> Forall2 (fun dm fa => chunk_counts (fst dm) (snd dm) (fst fa) (snd fa)) (combine Ds Ms) files -> exists lex alig, merge_counts files lex alig).
  { intros Ms files Lm F.
    assert (X : exists Ts As, Forall2 (fun DM T => ltabof (snd DM) (fst DM) T) (combine Ds Ms) Ts /\ Forall2 (fun DM T => atabof (snd DM) (fst DM) T) (combine Ds Ms) As /\ Forall2 (fun Ti g => exists f, print_table N.eq_dec Ti f /\ sort_tool lt_word lt_word f g) Ts (map fst files) /\
      Forall2 (fun Ti g => exists f, print_table aposdec Ti f /\ sort_tool lt_asource lt_pos f g) As (map snd files)).
    { clear -F Lm W. revert Ms files Lm F. induction Ds as [|D Ds IH]; intros Ms files Lm F; [destruct Ms; cbn in *; inversion F; exists [], []; repeat split; constructor|]. destruct Ms as [|M Ms]; [discriminate|]. cbn [combine] in F. inversion F as [|? fa ? files' (l & a & P1 & P2 & P3 & P4) F2]; subst. cbn [fst snd] in *.
      destruct (IH (fun p Hp => W p (in_or_app _ _ _ (or_intror Hp))) Ms files') as (Ts & As & A1 & A2 & A3 & A4); [cbn in Lm; congruence|exact F2|]. destruct (batch_tab D M) as [B1 B2]; [intros p Hp; apply W; cbn; apply in_or_app; left; exact Hp|].
      exists (ltb (batch_round D M) :: Ts), (atb (batch_round D M) :: As). cbn [combine map]. split; [constructor; assumption|]. split; [constructor; assumption|]. split; constructor; eauto. }
    destruct X as (Ts & As & A1 & A2 & A3 & A4).
    assert (Y : forall {K1 K2} (lt1 : K1 -> K1 -> bool) (lt2 : K2 -> K2 -> bool) d1 d2 kf Ts gs k, total_order lt1 -> total_order lt2 -> Forall2 (fun DM (T : ndtab K1 K2) => tabof d1 d2 kf (snd DM) (fst DM) T) (combine Ds Ms) Ts ->
       Forall2 (fun (Ti : ndtab K1 K2) g => exists f, print_table d1 Ti f /\ sort_tool lt1 lt2 f g) Ts gs -> gocc d1 d2 kf p k <> [] -> exists out, merge_tool lt1 lt2 d1 d2 gs (Some out)).
    { clear -Hp U Lm. intros K1 K2 lt1 lt2 d1 d2 kf Ts gs k O1 O2 F P Go.
      assert (Q : (forall g, In g gs -> strictly_sorted lt1 lt2 g /\ consistent g) /\ exists r, In r (concat gs)).
      { split.
        - intros g Hg. clear -F P Hg O1 O2. revert F. generalize (combine Ds Ms). induction P as [|Ti g0 Ts gs (f & P1 & P2) P IH]; intros l F; [destruct Hg|]. inversion F as [|D ? Ds' ? F1 F2]; subst. destruct Hg as [<-|Hg]; [|eapply IH; eauto]. destruct (listing lt1 lt2 d1 d2 O1 O2 _ _ _ (proj1 F1) P1 P2) as (S1 & C1 & _). split; assumption.
        - revert Ms Lm Hp F. revert Ds. induction P as [|Ti g Ts gs (f & P1 & P2) P IH]; intros Ds Ms Lm Hp F.
          + destruct Ds as [|D Ds]; [destruct Hp|]. destruct Ms; [discriminate|]. cbn in F. inversion F.
          + destruct Ds as [|D Ds]; [destruct Hp|]. destruct Ms as [|M Ms]; [discriminate|]. cbn [combine] in F. inversion F as [|? ? ? ? F1 F2]; subst. cbn [fst snd] in F1. cbn [concat] in *. apply in_app_or in Hp as [Hp|Hp].
            * destruct (listing lt1 lt2 d1 d2 O1 O2 _ _ _ (proj1 F1) P1 P2) as (_ & _ & Hh & _). destruct k as [s t]. assert (X : getNumer d1 d2 Ti s t <> None) by (apply F1; exists p; auto). apply Hh in X as (r & R & _). exists r. apply in_or_app. left; exact R.
            * destruct (IH Ds Ms) as (r & R); [cbn in Lm; congruence|exact Hp|exact F2|]. exists r. apply in_or_app. right; exact R. }
      destruct Q as [Q1 (r & Q2)]. destruct (merge_total lt1 lt2 d1 d2 O1 O2 gs) as [res M]. destruct (merge_correct lt1 lt2 d1 d2 O1 O2 gs res Q1) as (out & -> & _); [intros E1; rewrite E1 in Q2; destruct Q2|exact M|]. eauto. }
    destruct (Y _ _ lt_word lt_word N.eq_dec N.eq_dec kfl Ts (map fst files) _ ord_word ord_word A1 A3 Gl) as [lex L1]. destruct (Y _ _ lt_asource lt_pos aposdec Nat.eq_dec kfa As (map snd files) _ ord_asource ord_pos A2 A4 Ga) as [alig L2]. exists lex, alig. split; assumption. }
  induction n as [|n (infos & lex & alig & IH)].
  - destruct (files_ex (fun D fa => chunk_counts D E0 (fst fa) (snd fa)) Ds) as [files F]; [intros; apply chunk_ex|].
    destruct (Fin1 (map (fun _ => E0) Ds) files) as (lex & alig & M); [apply map_length|clear -F; induction F; cbn; constructor; assumption|]. eexists. exists lex, alig. eapply mr_first; eassumption.
  - destruct (mr_ok _ _ _ _ _ _ W IH) as (_ & If & _).
    destruct (files_ex (fun di fa => chunk_counts (fst di) (load_model (filter_tool N.eq_dec N.eq_dec lex (snd di)) alig) (fst fa) (snd fa)) (combine Ds infos)) as [files F]; [intros; apply chunk_ex|].
    destruct (Fin1 (map (fun info => load_model (filter_tool N.eq_dec N.eq_dec lex info) alig) infos) files) as (lex' & alig' & M).
    + rewrite map_length. clear -If. induction If; cbn; congruence.
    + clear -F. revert Ds files F. induction infos as [|i infos IH]; intros Ds files F; [destruct Ds; cbn in *; inversion F; constructor|]. destruct Ds as [|D Ds]; cbn in *; [inversion F; constructor|]. inversion F; subst. constructor; [assumption|apply IH; assumption].
    + exists infos, lex', alig'. eapply mr_next; eassumption.
Qed.
