(** Gaps and coverage. *)
From Coq Require Import Ascii String Arith List Bool Lia Sorted Permutation.
From Verif Require Import DecSpec DecModel.
Import ListNotations.
Open Scope nat_scope.

Lemma key_set_fold : forall js b x, fold_left key_set js b x = true <-> In x js \/ b x = true.
Proof.
  induction js as [|j js IH]; intros b x; simpl.
  - tauto.
  - rewrite IH. unfold key_set. destruct (Nat.eqb_spec x j); subst; intuition congruence.
Qed.
Lemma getKey_aux : forall ss b x,
  fold_left (fun b s => fold_left key_set (seq (fst s) (S (snd s) - fst s)) b) ss b x = true <-> covered ss x \/ b x = true.
Proof.
  induction ss as [|s ss IH]; intros b x; cbn [fold_left].
  - split; [tauto|]. intros [(s & [] & _)|H]; exact H.
  - rewrite IH, key_set_fold, in_seq. unfold covered, in_seg. split.
    + intros [(t & Ht & R)|[H|H]].
      * left. exists t. simpl; auto.
      * left. exists s. simpl. split; [auto|lia].
      * now right.
    + intros [(t & [->|Ht] & R)|H].
      * right; left. lia.
      * left. now exists t.
      * now right; right.
Qed.
Lemma getKey_spec : forall ss j, getKey ss j = true <-> covered ss j.
Proof. intros. unfold getKey. rewrite getKey_aux. intuition discriminate. Qed.
Lemma getKey_false : forall ss j, getKey ss j = false <-> ~ covered ss j.
Proof. intros. rewrite <- getKey_spec. destruct (getKey ss j); intuition congruence. Qed.

Section G.
Variable key : nat -> bool.
Definition closed (g : seg) : Prop :=
  1 <= fst g <= snd g /\ (forall j, in_seg g j -> key j = false) /\ (fst g = 1 \/ key (fst g - 1) = true) /\ key (S (snd g)) = true.
Definition sep (a b : seg) : Prop := snd a + 1 < fst b.
Definition ginv (j : nat) (crossing : bool) (first : nat) (gs : list seg) : Prop :=
  1 <= j /\ StronglySorted sep gs /\ (forall g, In g gs <-> closed g /\ snd g + 1 < j) /\
  (if crossing then 1 <= first < j /\ (forall i, first <= i < j -> key i = false) /\ (first = 1 \/ key (first - 1) = true)
   else j = 1 \/ key (j - 1) = true).
Lemma ssort_snoc : forall (gs : list seg) g, StronglySorted sep gs -> Forall (fun x => sep x g) gs -> StronglySorted sep (gs ++ [g]).
Proof.
  induction gs as [|x gs IH]; intros g S F; simpl.
  - constructor; constructor.
  - inversion S; subst. inversion F; subst. constructor; [now apply IH|]. apply Forall_app. split; [assumption|now constructor].
Qed.
Lemma gaps_loop_inv : forall m j crossing first gs, ginv j crossing first gs ->
  let '(c, f, g) := gaps_loop (seq j m) key crossing first gs in ginv (j + m) c f g.
Proof.
  induction m as [|m IH]; intros j crossing first gs I.
  - simpl. now rewrite Nat.add_0_r.
  - replace (j + S m) with (S j + m) by lia. cbn [seq gaps_loop].
    destruct I as (J1 & SS & G & C). destruct crossing; destruct (key j) eqn:K; cbn [negb andb]; apply IH.
    + (* closing a gap *)
      destruct C as (F & U & L).
      assert (CL : closed (first, j - 1)).
      { split; [cbn [fst snd]; lia|]. split; [intros i [A B]; cbn [fst snd] in *; apply U; lia|]. split; [exact L|].
        cbn [snd]. replace (S (j - 1)) with j by lia. exact K. }
      split; [lia|]. split; [|split].
      * apply ssort_snoc; [assumption|]. apply Forall_forall. intros x X. apply G in X. destruct X as (X & XJ).
        unfold sep. cbn [fst]. destruct X as (X1 & X2 & X3 & X4).
        destruct (le_lt_dec first (S (snd x))); [|lia]. rewrite (U (S (snd x))) in X4 by lia. discriminate.
      * intro g. rewrite in_app_iff, G. split.
        -- intros [[C1 C2]|[<-|[]]]; [split; [assumption|lia]|]. split; [assumption|]. cbn [snd]. lia.
        -- intros [C1 C2]. destruct (Nat.eq_dec (snd g + 1) j) as [E|N]; [|left; split; [assumption|lia]]. right. left.
           destruct g as [a b]. destruct C1 as (X1 & X2 & X3 & X4). cbn [fst snd] in *.
           assert (a = first).
           { destruct (lt_eq_lt_dec a first) as [[Q|Q]|Q]; [|assumption|].
             - destruct L as [L|L]; [lia|]. rewrite (X2 (first - 1)) in L; [discriminate|]. split; cbn [fst snd]; lia.
             - destruct X3 as [X3|X3]; [lia|]. rewrite (U (a - 1)) in X3 by lia. discriminate. }
           subst. f_equal. lia.
      * right. now replace (S j - 1) with j by lia.
    + (* still in the gap *)
      destruct C as (F & U & L). split; [lia|]. split; [assumption|]. split.
      * intro g. rewrite G. split; intros [C1 C2]; (split; [assumption|]); try lia.
        destruct (Nat.eq_dec (snd g + 1) j); [|lia]. destruct C1 as (_ & _ & _ & X). replace (S (snd g)) with j in X by lia. congruence.
      * split; [lia|]. split; [|assumption]. intros i I. destruct (Nat.eq_dec i j); [now subst|]. apply U. lia.
    + (* covered position outside gaps *)
      split; [lia|]. split; [assumption|]. split.
      * intro g. rewrite G. split; intros [C1 C2]; (split; [assumption|]); try lia.
        destruct (Nat.eq_dec (snd g + 1) j); [|lia]. destruct C1 as (Y & X & _ & _). destruct C as [C|C]; [lia|].
        rewrite (X (j - 1)) in C; [discriminate|]. split; lia.
      * right. now replace (S j - 1) with j by lia.
    + (* a gap starts *)
      split; [lia|]. split; [assumption|]. split.
      * intro g. rewrite G. split; intros [C1 C2]; (split; [assumption|]); try lia.
        destruct (Nat.eq_dec (snd g + 1) j); [|lia]. destruct C1 as (_ & _ & _ & X). replace (S (snd g)) with j in X by lia. congruence.
      * split; [lia|]. split; [|assumption]. intros i I. replace i with j by lia. assumption.
Qed.
Theorem extract_gaps_spec : forall n,
  StronglySorted sep (extract_gaps n key) /\ forall g, In g (extract_gaps n key) <-> is_gap n (fun j => key j = true) g.
Proof.
  intro n. unfold extract_gaps.
  assert (I : ginv 1 false 0 []).
  { split; [lia|]. split; [constructor|]. split; [|now left]. intro g. split; [intros []|]. intros [(C & _) C2]. lia. }
  apply (gaps_loop_inv n) in I. destruct (gaps_loop (seq 1 n) key false 0 []) as [[c f] gs]. destruct I as (_ & SS & G & C).
  assert (NF : forall j, key j = false -> key j <> true) by (intros; congruence).
  assert (GI : forall g, In g gs -> is_gap n (fun j => key j = true) g).
  { intros g X. apply G in X. destruct X as ((A & B & D & E) & F). split; [lia|]. split; [lia|]. split; [intros j J; apply NF; now apply B|].
    split; [assumption|]. right. now replace (snd g + 1) with (S (snd g)) by lia. }
  assert (IG : forall g, is_gap n (fun j => key j = true) g -> snd g < n -> In g gs).
  { intros g (A & B & D & E & F) L. apply G. split; [|lia]. split; [lia|]. split; [intros j J; apply not_true_is_false; now apply D|].
    split; [assumption|]. destruct F as [F|F]; [lia|]. now replace (S (snd g)) with (snd g + 1) by lia. }
  destruct c.
  - destruct C as (F & U & L). replace (n + 1 - 1) with n by lia. split.
    + apply ssort_snoc; [assumption|]. apply Forall_forall. intros x X. apply G in X. destruct X as ((X1 & X2 & X3 & X4) & XJ).
      unfold sep. cbn [fst]. destruct (le_lt_dec f (S (snd x))); [|lia]. rewrite (U (S (snd x))) in X4 by lia. discriminate.
    + intro g. rewrite in_app_iff. split.
      * intros [X|[<-|[]]]; [now apply GI|]. split; [cbn [fst snd]; lia|]. split; [cbn [snd]; lia|].
        split; [intros j [J1 J2]; cbn [fst snd] in *; apply NF, U; lia|]. split; [assumption|]. now left.
      * intro X. destruct (Nat.eq_dec (snd g) n) as [E|E]; [|left; apply IG; [assumption|]; destruct X as (_ & X & _); lia].
        right. left. destruct X as (A & B & D & X & _). destruct g as [a b]. cbn [fst snd] in *. subst b.
        assert (a = f).
        { destruct (lt_eq_lt_dec a f) as [[Q|Q]|Q]; [|assumption|].
          - exfalso. destruct L as [L|L]; [lia|]. apply (D (f - 1)); [split; cbn [fst snd]; lia|assumption].
          - exfalso. destruct X as [X|X]; [lia|]. rewrite (U (a - 1)) in X by lia. discriminate. }
        now subst.
  - split; [assumption|]. intro g. split; [apply GI|]. intro X. apply IG; [assumption|].
    destruct X as (A & B & D & _). destruct (Nat.eq_dec (snd g) n) as [E|E]; [exfalso|lia]. destruct C as [C|C]; [lia|].
    replace (1 + n - 1) with n in C by lia. apply (D n); [split; lia|assumption].
Qed.
Lemma numgaps_sim : forall js crossing first gs,
  numgaps_loop js key crossing (length gs) = let '(c, f, g) := gaps_loop js key crossing first gs in (c, length g).
Proof.
  induction js as [|j js IH]; intros crossing first gs; [reflexivity|].
  cbn [numgaps_loop gaps_loop]. destruct crossing; destruct (key j) eqn:K; cbn [negb andb]; try (apply IH).
  replace (S (length gs)) with (length (gs ++ [(first, j - 1)])) by (rewrite app_length; simpl; lia). apply IH.
Qed.
Theorem get_num_gaps_spec : forall n, get_num_gaps n key = length (extract_gaps n key).
Proof.
  intro n. unfold get_num_gaps, extract_gaps. pose proof (numgaps_sim (seq 1 n) false 0 []) as E. cbn [length] in E. rewrite E.
  destruct (gaps_loop (seq 1 n) key false 0 []) as [[c f] gs]. destruct c; [|reflexivity]. rewrite app_length. simpl. lia.
Qed.
End G.

(** ** counting covered positions *)
Definition positions (s : seg) : list nat := seq (fst s) (seg_len s).
Lemma positions_in : forall s j, In j (positions s) <-> in_seg s j.
Proof. intros [a b] j. unfold positions, seg_len, in_seg. cbn [fst snd]. rewrite in_seq. lia. Qed.
Lemma covered_fold : forall ss n, Forall (fun s => 1 <= fst s <= snd s) ss ->
  fold_left (fun n s => n + (usub (snd s) (fst s) + 1)) ss n = n + list_sum (map seg_len ss).
Proof.
  induction ss as [|s ss IH]; intros n F; [simpl; lia|]. inversion F; subst. cbn [fold_left map list_sum fold_right]. rewrite IH by assumption.
  unfold usub. destruct (Nat.leb_spec (fst s) (snd s)); [|lia]. unfold seg_len. change (fold_right Nat.add 0) with list_sum. lia.
Qed.
Lemma nodup_app : forall A (a b : list A), NoDup a -> NoDup b -> (forall x, In x a -> ~ In x b) -> NoDup (a ++ b).
Proof.
  induction a as [|x a IH]; intros b A1 B1 D; [assumption|]. inversion A1; subst. simpl. constructor.
  - rewrite in_app_iff. intros [X|X]; [contradiction|]. apply (D x); simpl; auto.
  - apply IH; auto. intros y Y. apply D. now right.
Qed.
Lemma positions_nodup : forall ss, ForallOrdPairs disjoint ss -> NoDup (flat_map positions ss).
Proof.
  induction ss as [|s ss IH]; intro F; [constructor|]. inversion F; subst. simpl. apply nodup_app; [apply seq_NoDup|now apply IH|].
  intros x X Y. apply in_flat_map in Y. destruct Y as (t & T & Y). rewrite positions_in in *.
  rewrite Forall_forall in H1. exact (H1 t T x (conj X Y)).
Qed.
Lemma flat_positions_in : forall ss j, In j (flat_map positions ss) <-> covered ss j.
Proof. intros. rewrite in_flat_map. unfold covered. split; intros (s & A & B); exists s; rewrite positions_in in *; auto. Qed.
Lemma flat_positions_len : forall ss, length (flat_map positions ss) = list_sum (map seg_len ss).
Proof. induction ss as [|s ss IH]; [reflexivity|]. simpl. rewrite app_length, IH. unfold positions. now rewrite seq_length. Qed.
Definition covb (ss : list seg) (j : nat) : bool := existsb (fun s => (fst s <=? j) && (j <=? snd s)) ss.
Lemma covb_spec : forall ss j, covb ss j = true <-> covered ss j.
Proof.
  intros. unfold covb, covered, in_seg. rewrite existsb_exists. split; intros (s & A & B); exists s; (split; [assumption|]).
  - apply andb_true_iff in B. destruct B as [B C]. apply Nat.leb_le in B, C. lia.
  - apply andb_true_iff. split; apply Nat.leb_le; lia.
Qed.
Lemma well_seg_count : forall n ss, well_segmented n ss -> srcWordsCovered ss = length (filter (covb ss) (seq 1 n)).
Proof.
  intros n ss (F & D). unfold srcWordsCovered. rewrite covered_fold.
  2:{ eapply Forall_impl; [|exact F]. intros s (A & B). lia. }
  rewrite Nat.add_0_l, <- flat_positions_len. apply Permutation_length, NoDup_Permutation.
  - now apply positions_nodup.
  - apply NoDup_filter, seq_NoDup.
  - intro j. rewrite flat_positions_in, filter_In, in_seq, covb_spec. split; [|tauto]. intro C. split; [|assumption].
    destruct C as (s & S & I). rewrite Forall_forall in F. specialize (F s S). unfold in_seg in I. lia.
Qed.
Lemma well_seg_le : forall n ss, well_segmented n ss -> srcWordsCovered ss <= n.
Proof.
  intros n ss W. rewrite (well_seg_count _ _ W).
  assert (forall (p : nat -> bool) l, length (filter p l) <= length l) as H.
  { intros p l. induction l as [|x l IH]; simpl; [lia|]. destruct (p x); simpl; lia. }
  specialize (H (covb ss) (seq 1 n)). now rewrite seq_length in H.
Qed.
Lemma filter_all : forall A (p : A -> bool) l, length (filter p l) = length l -> forall x, In x l -> p x = true.
Proof.
  induction l as [|y l IH]; intros E x X; [inversion X|]. simpl in *.
  assert (length (filter p l) <= length l) as H.
  { clear. induction l as [|z l IH]; simpl; [lia|]. destruct (p z); simpl; lia. }
  destruct (p y) eqn:P; simpl in E; [|lia]. destruct X as [<-|X]; [assumption|]. apply IH; [lia|assumption].
Qed.
Theorem complete_iff : forall n h, well_segmented n (segs h) ->
  (isComplete n h = true <-> forall j, 1 <= j <= n -> covered (segs h) j).
Proof.
  intros n h W. unfold isComplete, numberOfUncoveredSrcWords. pose proof (well_seg_le _ _ W) as L. unfold usub.
  destruct (Nat.leb_spec (srcWordsCovered (segs h)) n); [|lia]. rewrite Nat.eqb_eq, (well_seg_count _ _ W) in *. split.
  - intros E j J. apply covb_spec. eapply filter_all with (l := seq 1 n).
    + rewrite seq_length. lia.
    + rewrite in_seq. lia.
  - intro C. assert (filter (covb (segs h)) (seq 1 n) = seq 1 n) as ->.
    { assert (forall p (l : list nat), (forall x, In x l -> p x = true) -> filter p l = l) as Q.
      { clear. induction l as [|x l IH]; intro H; [reflexivity|]. simpl. rewrite H by (now left). f_equal. apply IH. intros y Y. apply H. now right. }
      apply Q. intros x X. apply in_seq in X. apply covb_spec, C. lia. }
    rewrite seq_length. lia.
Qed.
Theorem uncovered_count : forall n h, well_segmented n (segs h) ->
  numberOfUncoveredSrcWords n h + length (filter (covb (segs h)) (seq 1 n)) = n /\
  distToNullHyp n h = length (filter (covb (segs h)) (seq 1 n)).
Proof.
  intros n h W. pose proof (well_seg_le _ _ W) as L. rewrite <- (well_seg_count _ _ W).
  unfold distToNullHyp, numberOfUncoveredSrcWords, nullHypothesisHypData. cbn [segs]. change (srcWordsCovered []) with 0.
  unfold usub. destruct (Nat.leb_spec (srcWordsCovered (segs h)) n); [|lia]. cbn [Nat.leb].
  replace (n - 0) with n by lia. destruct (Nat.leb_spec (n - srcWordsCovered (segs h)) n); lia.
Qed.
