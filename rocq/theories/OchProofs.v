(** The Och extraction: exactly which span pairs it outputs. *)
From Coq Require Import NArith Arith List Bool Lia Sorting.Sorted.
From Verif Require Import AligSpec AligModel ExtrSpec ExtrModel ExtrBase ExtrProofs.
Import ListNotations.
Lemma seq_sorted : forall n a, StronglySorted lt (seq a n).
Proof. induction n as [|n IH]; intros a; cbn; constructor; [apply IH|]. apply Forall_forall. intros x Hx. apply in_seq in Hx. lia. Qed.
Lemma filter_sorted : forall f l, StronglySorted lt l -> StronglySorted lt (filter f l).
Proof.
  intros f l H; induction H as [|x l H IH F]; cbn; [constructor|]. destruct (f x); [|exact IH]. constructor; [exact IH|].
  rewrite Forall_forall in *. intros y Hy. apply filter_In in Hy. apply F. tauto.
Qed.
Lemma sorted_bounds : forall a l x, StronglySorted lt (a :: l) -> In x (a :: l) -> a <= x <= last (a :: l) 0.
Proof.
  intros a l; revert a; induction l as [|b l IH]; intros a x H Hx; [destruct Hx as [<-|[]]; cbn; lia|].
  inversion H as [|? ? Hs Hf]; subst. change (last (a :: b :: l) 0) with (last (b :: l) 0). rewrite Forall_forall in Hf.
  destruct Hx as [<-|Hx].
  - specialize (Hf b ltac:(left; reflexivity)). specialize (IH b b Hs ltac:(left; reflexivity)). lia.
  - specialize (IH b x Hs Hx). specialize (Hf x Hx). lia.
Qed.
Lemma last_in : forall (a : nat) l, In (last (a :: l) 0) (a :: l).
Proof. intros a l; revert a; induction l as [|b l IH]; intros a; [left; reflexivity|]. right. apply IH. Qed.
Section Och.
Context {W : Type}.
Variables (A : wam) (ns t : list W) (P : epars).
Hypothesis DI : wI A = nslen ns - 1.
Hypothesis DJ : wJ A = tlen t.
Notation TL := (tlen t).
Notation NL := (nslen ns).
Notation lk := (lnk A).
Lemma jAl_spec : forall j, j < TL -> (jAl A j = true <-> trg_linked A (S j)).
Proof.
  intros j Hj. unfold jAl, jAligned. rewrite existsb_exists. split.
  - intros [i [Hi L]]. apply in_seq in Hi. exists (i + 1). replace (S j) with (j + 1) by lia. apply (lk_linked A ns t DI DJ); [lia|lia|exact L].
  - intros [i L]. apply (linked_lk A ns t DI DJ) in L. exists (i - 1). replace (S j - 1) with j in L by lia. split; [apply in_seq; lia|apply L].
Qed.
Lemma consec_spec : forall l a, StronglySorted lt (a :: l) ->
  (och_consec A (a :: l) = true <-> forall m, a < m < last (a :: l) 0 -> ~ In m (a :: l) -> jAl A m = true).
Proof.
  induction l as [|b l IH]; intros a H; [cbn; split; [intros; lia|reflexivity]|].
  inversion H as [|? ? Hs Hf]; subst. rewrite Forall_forall in Hf. pose proof (Hf b ltac:(left; reflexivity)) as Hab.
  change (och_consec A (a :: b :: l)) with ((if a =? b - 1 then true else forallb (jAl A) (seq (a + 1) (b - (a + 1)))) && och_consec A (b :: l)).
  change (last (a :: b :: l) 0) with (last (b :: l) 0). rewrite andb_true_iff, (IH b Hs).
  assert (G : (if a =? b - 1 then true else forallb (jAl A) (seq (a + 1) (b - (a + 1)))) = true <-> forall m, a < m < b -> jAl A m = true).
  { destruct (Nat.eqb_spec a (b - 1)) as [E|E]; [split; [intros; lia|reflexivity]|]. rewrite forallb_forall. split; intros G m Hm; [apply G, in_seq; lia|]. apply in_seq in Hm. apply G. lia. }
  rewrite G. split.
  - intros [G1 G2] m Hm Nm. destruct (Nat.lt_trichotomy m b) as [C|[C|C]]; [apply G1; lia|exfalso; apply Nm; right; left; auto|].
    apply G2; [lia|]. intros Q. apply Nm. right. exact Q.
  - intros G1. split.
    + intros m Hm. apply G1; [pose proof (sorted_bounds b l b Hs ltac:(left; reflexivity)); lia|]. intros [Q|Q]; [lia|]. pose proof (sorted_bounds b l m Hs Q). lia.
    + intros m Hm Nm. apply G1; [lia|]. intros [Q|Q]; [lia|]. auto.
Qed.
Lemma SP_in : forall i1 i2 j, 1 <= i1 -> i2 < NL -> (In j (och_SP A t i1 i2) <-> exists k, i1 <= k <= i2 /\ linked A k j).
Proof.
  intros i1 i2 j H1 H2. unfold och_SP. rewrite filter_In, in_seq, existsb_exists. split.
  - intros [Hj [k [Hk L]]]. apply in_seq in Hk. exists k. split; [lia|]. apply (linked_lk A ns t DI DJ). split; [lia|]. split; [lia|exact L].
  - intros [k [Hk L]]. apply (linked_lk A ns t DI DJ) in L. split; [lia|]. exists k. split; [apply in_seq; lia|apply L].
Qed.
Lemma TP_in : forall j1 j2 i, 1 <= j1 -> j2 <= TL -> (In i (och_TP A ns j1 j2) <-> exists k, j1 <= k <= j2 /\ linked A i k).
Proof.
  intros j1 j2 i H1 H2. unfold och_TP, slen. rewrite filter_In, in_seq, existsb_exists. split.
  - intros [Hj [k [Hk L]]]. apply in_seq in Hk. exists k. split; [lia|]. apply (linked_lk A ns t DI DJ). split; [lia|]. split; [lia|exact L].
  - intros [k [Hk L]]. apply (linked_lk A ns t DI DJ) in L. split; [lia|]. exists k. split; [apply in_seq; lia|apply L].
Qed.
Definition unl (a b : nat) : Prop := forall k, a <= k <= b -> 1 <= k <= TL /\ ~ trg_linked A k.
Lemma right_in : forall fuel i1 i2 jp j2 a q, 1 <= j2 <= a -> TL < a + fuel -> j2 <= TL ->
  (In q (och_right A t fuel i1 i2 jp j2 a) <-> exists jpp, q = (i1, i2, jp, jpp) /\ a <= jpp /\ (forall k, a <= k <= jpp -> k = j2 \/ (k <= TL /\ ~ trg_linked A k))).
Proof.
  induction fuel as [|f IH]; intros i1 i2 jp j2 a q H1 H2 H3; cbn [och_right].
  - split; [intros []|]. intros [jpp [_ [Ha Hk]]]. destruct (Hk a ltac:(lia)) as [K|K]; lia.
  - destruct (Nat.eqb_spec a j2) as [E|E]; cbn [orb].
    + split.
      * intros [<-|H]; [exists a; split; [reflexivity|]; split; [lia|]; intros k Hk; left; lia|]. apply IH in H; [|lia|lia|lia]. destruct H as [jpp [-> [Ha Hk]]].
        exists jpp. split; [reflexivity|]. split; [lia|]. intros k Hk'. destruct (Nat.eq_dec k a); [left; lia|apply Hk; lia].
      * intros [jpp [-> [Ha Hk]]]. destruct (Nat.eq_dec jpp a) as [->|N]; [left; reflexivity|right]. apply IH; [lia|lia|lia|]. exists jpp. split; [reflexivity|]. split; [lia|]. intros k Hk'. apply Hk. lia.
    + destruct (Nat.leb_spec a TL) as [L|L]; cbn [andb]; [|split; [intros []|]; intros [jpp [_ [Ha Hk]]]; destruct (Hk a ltac:(lia)) as [K|K]; lia].
      pose proof (jAl_spec (a - 1) ltac:(lia)) as J. replace (S (a - 1)) with a in J by lia. destruct (jAl A (a - 1)); cbn [negb].
      * split; [intros []|]. intros [jpp [_ [Ha Hk]]]. destruct (Hk a ltac:(lia)) as [K|[_ K]]; [lia|]. exfalso. apply K, J. reflexivity.
      * assert (U : ~ trg_linked A a) by (intros Q; apply J in Q; discriminate). split.
        -- intros [<-|H]; [exists a; split; [reflexivity|]; split; [lia|]; intros k Hk; right; replace k with a by lia; auto|]. apply IH in H; [|lia|lia|lia]. destruct H as [jpp [-> [Ha Hk]]].
           exists jpp. split; [reflexivity|]. split; [lia|]. intros k Hk'. destruct (Nat.eq_dec k a) as [->|]; [right; auto|apply Hk; lia].
        -- intros [jpp [-> [Ha Hk]]]. destruct (Nat.eq_dec jpp a) as [->|N]; [left; reflexivity|right]. apply IH; [lia|lia|lia|]. exists jpp. split; [reflexivity|]. split; [lia|]. intros k Hk'. apply Hk. lia.
Qed.
Lemma left_in : forall fuel i1 i2 j1 j2 a q, 1 <= j1 -> a <= j1 -> a < fuel -> 1 <= j2 <= TL -> j1 <= TL ->
  (In q (och_left A t fuel i1 i2 j1 j2 a) <-> exists jp, (1 <= jp <= a /\ forall k, jp <= k <= a -> k = j1 \/ ~ trg_linked A k) /\ In q (och_right A t (S TL) i1 i2 jp j2 j2)).
Proof.
  induction fuel as [|f IH]; intros i1 i2 j1 j2 a q H1 H2 H3 H4 H5; [lia|]. cbn [och_left]. destruct (Nat.eqb_spec a j1) as [E|E]; cbn [orb].
  - rewrite in_app_iff, IH by lia. split.
    + intros [H|[jp [[Hj Hk] H]]]; [exists a; split; [split; [lia|]; intros k Hk; left; lia|exact H]|]. exists jp. split; [|exact H]. split; [lia|]. intros k Hk'. destruct (Nat.eq_dec k a); [left; lia|apply Hk; lia].
    + intros [jp [[Hj Hk] H]]. destruct (Nat.eq_dec jp a) as [->|N]; [left; exact H|right]. exists jp. split; [|exact H]. split; [lia|]. intros k Hk'. apply Hk. lia.
  - destruct (Nat.ltb_spec 0 a) as [L|L]; cbn [andb]; [|split; [intros []|]; intros [jp [[Hj _] _]]; lia].
    pose proof (jAl_spec (a - 1) ltac:(lia)) as J. replace (S (a - 1)) with a in J by lia. destruct (jAl A (a - 1)); cbn [negb].
    + split; [intros []|]. intros [jp [[Hj Hk] _]]. destruct (Hk a ltac:(lia)) as [K|K]; [lia|]. exfalso. apply K, J. reflexivity.
    + assert (U : ~ trg_linked A a) by (intros Q; apply J in Q; discriminate). rewrite in_app_iff, IH by lia. split.
      * intros [H|[jp [[Hj Hk] H]]]; [exists a; split; [split; [lia|]; intros k Hk; right; replace k with a by lia; exact U|exact H]|]. exists jp. split; [|exact H]. split; [lia|]. intros k Hk'. destruct (Nat.eq_dec k a) as [->|]; [right; exact U|apply Hk; lia].
      * intros [jp [[Hj Hk] H]]. destruct (Nat.eq_dec jp a) as [->|N]; [left; exact H|right]. exists jp. split; [|exact H]. split; [lia|]. intros k Hk'. apply Hk. lia.
Qed.
Lemma at_in : forall i1 i2 q, 1 <= i1 <= i2 -> i2 < NL ->
  (In q (och_at A ns t i1 i2) <-> exists j1 j2, q = (i1, i2, j1, j2) /\ consistent A i1 i2 j1 j2 /\ no_wide_gap A j1 j2).
Proof.
  intros i1 i2 q Hi Hi2. unfold och_at. pose proof (fun j => SP_in i1 i2 j ltac:(lia) Hi2) as SPI.
  assert (SS : StronglySorted lt (och_SP A t i1 i2)) by (apply filter_sorted, seq_sorted).
  destruct (och_SP A t i1 i2) as [|f SP] eqn:ES.
  - split; [intros []|]. intros [j1 [j2 [_ [[_ [_ [_ [_ [[i [j [L [B _]]]] _]]]]] _]]]]. apply (SPI j). exists i. auto.
  - set (g := last (f :: SP) 0) in *.
    assert (Fg : forall j, (exists k, i1 <= k <= i2 /\ linked A k j) -> f <= j <= g) by (intros j Hj; apply SPI in Hj; apply sorted_bounds; assumption).
    assert (F1 : exists k, i1 <= k <= i2 /\ linked A k f) by (apply SPI; left; reflexivity).
    assert (G1 : exists k, i1 <= k <= i2 /\ linked A k g) by (apply SPI, last_in).
    assert (Bf : 1 <= f <= TL) by (destruct F1 as [k [_ L]]; apply (linked_lk A ns t DI DJ) in L; lia).
    assert (Bg : 1 <= g <= TL) by (destruct G1 as [k [_ L]]; apply (linked_lk A ns t DI DJ) in L; lia).
    assert (Bfg : f <= g) by (apply (Fg f F1)).
    pose proof (consec_spec SP f SS) as CS. fold g in CS.
    pose proof (fun i => TP_in f g i ltac:(lia) ltac:(lia)) as TPI.
    assert (TS : StronglySorted lt (och_TP A ns f g)) by (apply filter_sorted, seq_sorted).
    (* the tests *)
    assert (CORE : (och_consec A (f :: SP) = true /\ (forall i k, f <= k <= g -> linked A i k -> i1 <= i <= i2)) <->
       ((forall i k, f <= k <= g -> linked A i k -> i1 <= i <= i2) /\ no_wide_gap A f g)).
    { rewrite CS. split; intros [H1 H2]; [split; [exact H2|]|split; [|exact H1]].
      - intros [a [j [b [Ha [Hb [_ [_ [U1 U2]]]]]]]]. apply U2. replace (j + 1) with (S j) by lia. apply jAl_spec; [lia|]. apply H1; [lia|].
        intros Q. apply SPI in Q. destruct Q as [k [_ Q]]. apply U1. exists k. exact Q.
      - intros m Hm Nm. destruct (jAl A m) eqn:J; [reflexivity|exfalso]. assert (Um : ~ trg_linked A (m + 1)) by (replace (m + 1) with (S m) by lia; intros Q; apply jAl_spec in Q; [congruence|lia]).
        assert (Um0 : ~ trg_linked A m). { intros [i Q]. apply Nm. apply SPI. exists i. split; [|exact Q]. apply (H1 i m); [lia|exact Q]. }
        destruct (Nat.eq_dec (m + 1) g) as [E|N]; [apply Um; rewrite E; destruct G1 as [k [_ L]]; exists k; exact L|].
        apply H2. exists f, m, g. destruct F1 as [kf [_ Lf]], G1 as [kg [_ Lg]]. repeat split; try lia; auto; [exists kf; exact Lf|exists kg; exact Lg]. }
    assert (TPC : match och_TP A ns f g with [] => False | f0 :: _ => i1 <= f0 /\ last (och_TP A ns f g) 0 <= i2 end <-> forall i k, f <= k <= g -> linked A i k -> i1 <= i <= i2).
    { destruct (och_TP A ns f g) as [|f0 TP] eqn:ET.
      - split; [intros []|]. intros _. destruct F1 as [k [_ L]]. apply (TPI k). exists f. split; [lia|exact L].
      - split.
        + intros [Q1 Q2] i k Hk L. assert (Hin : In i (f0 :: TP)) by (apply TPI; exists k; auto). pose proof (sorted_bounds f0 TP i TS Hin). lia.
        + intros H. assert (X1 : In f0 (f0 :: TP)) by (left; reflexivity). pose proof (last_in f0 TP) as X2. apply TPI in X1. apply TPI in X2. destruct X1 as [k1 [B1 L1]], X2 as [k2 [B2 L2]].
          pose proof (H _ _ B1 L1). pose proof (H _ _ B2 L2). lia. }
    (* consistency of a widened core *)
    assert (WID : (forall i k, f <= k <= g -> linked A i k -> i1 <= i <= i2) -> forall j1 j2, 1 <= j1 -> j1 <= f -> g <= j2 -> j2 <= TL ->
       (consistent A i1 i2 j1 j2 <-> (forall k, j1 <= k <= f -> k = f \/ ~ trg_linked A k) /\ (forall k, g <= k <= j2 -> k = g \/ (k <= TL /\ ~ trg_linked A k)))).
    { intros TPH j1 j2 H1 H2 H3 H4. split.
      - intros [_ [_ [_ [_ [_ C]]]]]. split; intros k Hk; (destruct (Nat.eq_dec k f) as [->|Nf]; [|]).
        + left; reflexivity.
        + right. intros [i L]. assert (B : i1 <= i <= i2) by (apply (C i k L); lia). assert (f <= k <= g) by (apply Fg; exists i; auto). lia.
        + destruct (Nat.eq_dec f g); [left; exact e|]. lia.
        + destruct (Nat.eq_dec k g) as [->|Ng]; [left; reflexivity|]. right. split; [lia|]. intros [i L]. assert (B : i1 <= i <= i2) by (apply (C i k L); lia). assert (f <= k <= g) by (apply Fg; exists i; auto). lia.
      - intros [U1 U2]. split; [lia|]. split; [lia|]. split; [lia|]. split; [lia|]. split.
        + destruct F1 as [k [Hk L]]. exists k, f. split; [exact L|]. lia.
        + intros i j L. split; intros B.
          * assert (f <= j <= g) by (apply Fg; exists i; auto). lia.
          * assert (f <= j <= g).
            { destruct (Nat.lt_ge_cases j f) as [C|C]; [exfalso; destruct (U1 j ltac:(lia)) as [U|U]; [lia|apply U; exists i; exact L]|].
              destruct (Nat.lt_ge_cases g j) as [C'|C']; [exfalso; destruct (U2 j ltac:(lia)) as [U|[_ U]]; [lia|apply U; exists i; exact L]|]. lia. }
            apply (TPH i j); assumption. }
    assert (GAP : forall j1 j2, j1 <= f -> g <= j2 -> (forall k, j1 <= k <= f -> k = f \/ ~ trg_linked A k) -> (forall k, g <= k <= j2 -> k = g \/ (k <= TL /\ ~ trg_linked A k)) -> (no_wide_gap A j1 j2 <-> no_wide_gap A f g)).
    { intros j1 j2 H1 H2 U1 U2. split; intros N [a [j [b [Ha [Hb [La [Lb U]]]]]]]; apply N; exists a, j, b; repeat split; try tauto; try lia.
      - destruct (Nat.le_gt_cases f a) as [C|C]; [lia|]. destruct (U1 a ltac:(lia)) as [Q|Q]; [lia|]. contradiction.
      - destruct (Nat.le_gt_cases b g) as [C|C]; [lia|]. destruct (U2 b ltac:(lia)) as [Q|[_ Q]]; [lia|]. contradiction. }
    assert (EXT : forall j1 j2, consistent A i1 i2 j1 j2 -> 1 <= j1 /\ j1 <= f /\ g <= j2 /\ j2 <= TL).
    { intros j1 j2 [_ [_ [B3 [B4 [_ C]]]]]. rewrite DJ in B4. destruct F1 as [kf [Hf Lf]], G1 as [kg [Hg Lg]]. pose proof (proj1 (C _ _ Lf) Hf). pose proof (proj1 (C _ _ Lg) Hg). lia. }
    assert (TPW : forall j1 j2, consistent A i1 i2 j1 j2 -> forall i k, f <= k <= g -> linked A i k -> i1 <= i <= i2).
    { intros j1 j2 C i k Hk L. destruct (EXT _ _ C) as [_ [E1 [E2 _]]]. destruct C as [_ [_ [_ [_ [_ C]]]]]. apply (C i k L). lia. }
    assert (LEFT : In q (och_left A t (S TL) i1 i2 f g f) <-> exists j1 j2, q = (i1, i2, j1, j2) /\ 1 <= j1 /\ j1 <= f /\ g <= j2 /\ (forall k, j1 <= k <= f -> k = f \/ ~ trg_linked A k) /\ (forall k, g <= k <= j2 -> k = g \/ (k <= TL /\ ~ trg_linked A k))).
    { rewrite left_in by lia. split.
      - intros [jp [[H1 H2] H3]]. apply right_in in H3; [|lia|lia|lia]. destruct H3 as [jpp [-> [H4 H5]]]. exists jp, jpp. repeat split; auto; lia.
      - intros [j1 [j2 [-> [H1 [H2 [H3 [H4 H5]]]]]]]. exists j1. split; [split; [lia|exact H4]|]. apply right_in; [lia|lia|lia|]. exists j2. auto. }
    destruct (och_consec A (f :: SP)) eqn:OC.
    + assert (M : In q (match och_TP A ns f g with [] => [] | f0 :: _ => if (i1 <=? f0) && (last (och_TP A ns f g) 0 <=? i2) then och_left A t (S TL) i1 i2 f g f else [] end) <->
         (forall i k, f <= k <= g -> linked A i k -> i1 <= i <= i2) /\ In q (och_left A t (S TL) i1 i2 f g f)).
      { rewrite <- TPC. destruct (och_TP A ns f g) as [|f0 TP]; [tauto|]. destruct (Nat.leb_spec i1 f0) as [Q1|Q1], (Nat.leb_spec (last (f0 :: TP) 0) i2) as [Q2|Q2]; cbn [andb];
        (split; [intros Z; try (destruct Z; fail); auto|intros [[Z1 Z2] Z]; try lia; exact Z]). }
      rewrite M, LEFT. clear M. split.
      * intros [TPH [j1 [j2 [-> [H1 [H2 [H3 [H4 H5]]]]]]]]. assert (J2 : j2 <= TL) by (destruct (H5 j2 ltac:(lia)) as [Q|[Q _]]; lia).
        exists j1, j2. split; [reflexivity|]. split; [apply (WID TPH j1 j2 H1 H2 H3 J2); split; assumption|]. apply (GAP j1 j2 H2 H3 H4 H5). apply CORE. split; [reflexivity|exact TPH].
      * intros [j1 [j2 [-> [C N]]]]. pose proof (TPW _ _ C) as TPH. destruct (EXT _ _ C) as [E1 [E2 [E3 E4]]]. split; [exact TPH|]. exists j1, j2. split; [reflexivity|].
        apply (WID TPH j1 j2 E1 E2 E3 E4) in C. tauto.
    + split; [intros []|]. intros [j1 [j2 [-> [C N]]]]. pose proof (TPW _ _ C) as TPH. destruct (EXT _ _ C) as [E1 [E2 [E3 E4]]].
      apply (WID TPH j1 j2 E1 E2 E3 E4) in C. destruct C as [U1 U2]. apply (GAP j1 j2 E2 E3 U1 U2) in N. destruct CORE as [_ CORE]. destruct CORE as [Q _]; [split; assumption|]. congruence.
Qed.
Lemma spans_in : forall q, In q (och_spans A ns t) <-> exists i1 i2 j1 j2, q = (i1, i2, j1, j2) /\ consistent A i1 i2 j1 j2 /\ no_wide_gap A j1 j2.
Proof.
  intros q. unfold och_spans, slen. rewrite in_flat_map. split.
  - intros [i1 [H1 H]]. apply in_flat_map in H. destruct H as [i2 [H2 H]]. apply in_seq in H1, H2. apply at_in in H; [|lia|lia]. destruct H as [j1 [j2 H]]. exists i1, i2, j1, j2. exact H.
  - intros [i1 [i2 [j1 [j2 [-> [C N]]]]]]. pose proof C as [B1 [B2 _]]. rewrite DI in B2. exists i1. split; [apply in_seq; lia|]. apply in_flat_map. exists i2. split; [apply in_seq; lia|].
    apply at_in; [lia|lia|]. exists j1, j2. auto.
Qed.
Lemma och_pair_spec : forall i1 i2 j1 j2, consistent A i1 i2 j1 j2 -> och_pair ns t (i1, i2, j1, j2) = mkpp (words (tl ns) i1 i2) (words t j1 j2) 1%N 1.
Proof.
  intros i1 i2 j1 j2 [B1 [B2 [B3 [B4 _]]]]. rewrite DI in B2. rewrite DJ in B4. unfold och_pair, tlen, nslen in *. f_equal.
  - rewrite pick_seq by lia. unfold words. destruct ns as [|n0 ns']; [cbn in *; lia|]. cbn [tl]. f_equal. destruct i1 as [|i1]; [lia|]. cbn [skipn]. f_equal. lia.
  - assert (E : forall n a, map pred (seq (S a) n) = seq a n) by (induction n as [|n IH]; intros a; cbn [seq map pred]; [reflexivity|rewrite IH; reflexivity]).
    destruct j1 as [|j1]; [lia|]. rewrite E, pick_seq by lia. unfold words. replace (S j1 - 1) with j1 by lia. reflexivity.
Qed.
(** no span pair twice *)
Lemma nodup_fm : forall (X Y : Type) (f : X -> list Y) l, NoDup l -> (forall x, In x l -> NoDup (f x)) -> (forall x x' y, In x l -> In x' l -> In y (f x) -> In y (f x') -> x = x') -> NoDup (flat_map f l).
Proof.
  intros X Y f l H. induction H as [|x l N H IH]; intros H1 H2; [constructor|]. cbn.
  assert (G : forall U V : list Y, NoDup U -> NoDup V -> (forall y, In y U -> ~ In y V) -> NoDup (U ++ V)).
  { intros U V HU HV. induction HU as [|y U Ny HU IHU]; intros D; [exact HV|]. cbn. constructor; [intros Q; apply in_app_or in Q; destruct Q as [Q|Q]; [auto|apply (D y); [left; reflexivity|exact Q]]|apply IHU; intros; apply D; right; auto]. }
  apply G; [apply H1; left; reflexivity|apply IH; intros; [apply H1; right; auto|apply (H2 x0 x' y); try right; auto]|].
  intros y Hy Q. apply in_flat_map in Q. destruct Q as [x' [Hx' Q]]. apply N. replace x with x'; [exact Hx'|]. apply (H2 x' x y); [right; exact Hx'|left; reflexivity|exact Q|exact Hy].
Qed.
Lemma right_nodup : forall fuel i1 i2 jp j2 a, NoDup (och_right A t fuel i1 i2 jp j2 a) /\ forall q, In q (och_right A t fuel i1 i2 jp j2 a) -> exists b, q = (i1, i2, jp, b) /\ a <= b.
Proof.
  induction fuel as [|f IH]; intros i1 i2 jp j2 a; cbn [och_right]; [split; [constructor|intros q []]|]. destruct (_ || _); [|split; [constructor|intros q []]].
  destruct (IH i1 i2 jp j2 (a + 1)) as [N B]. split.
  - constructor; [|exact N]. intros Q. destruct (B _ Q) as [b [E Hb]]. injection E as E. lia.
  - intros q [<-|Q]; [exists a; split; [reflexivity|lia]|]. destruct (B _ Q) as [b [E Hb]]. exists b. split; [exact E|lia].
Qed.
Lemma left_nodup : forall fuel i1 i2 j1 j2 a, 1 <= j1 -> NoDup (och_left A t fuel i1 i2 j1 j2 a) /\ forall q, In q (och_left A t fuel i1 i2 j1 j2 a) -> exists jp b, q = (i1, i2, jp, b) /\ jp <= a.
Proof.
  induction fuel as [|f IH]; intros i1 i2 j1 j2 a H1; cbn [och_left]; [split; [constructor|intros q []]|]. destruct ((a =? j1) || _) eqn:C; [|split; [constructor|intros q []]].
  assert (Ha : 1 <= a). { apply orb_true_iff in C. destruct C as [C|C]; [apply Nat.eqb_eq in C; lia|]. apply andb_true_iff in C. destruct C as [C _]. apply Nat.ltb_lt in C. lia. }
  destruct (IH i1 i2 j1 j2 (a - 1) H1) as [N B]. destruct (right_nodup (S TL) i1 i2 a j2 j2) as [N' B'].
  assert (B2 : forall q, In q (och_right A t (S TL) i1 i2 a j2 j2 ++ och_left A t f i1 i2 j1 j2 (a - 1)) -> exists jp b, q = (i1, i2, jp, b) /\ jp <= a).
  { intros q Q. apply in_app_or in Q. destruct Q as [Q|Q]; [destruct (B' _ Q) as [b [E Hb]]; exists a, b; split; [exact E|lia]|]. destruct (B _ Q) as [jp [b [E Hb]]]. exists jp, b. split; [exact E|lia]. }
  split; [|exact B2].
  assert (D : forall q, In q (och_right A t (S TL) i1 i2 a j2 j2) -> ~ In q (och_left A t f i1 i2 j1 j2 (a - 1))).
  { intros q Q Q'. destruct (B' _ Q) as [b [E _]]. destruct (B _ Q') as [jp [b' [E' Hb]]]. rewrite E in E'. injection E' as E1 E2. lia. }
  clear B2 B'. revert D. induction N' as [|q U Nq HU IHU]; intros D; [exact N|]. cbn [app]. constructor; [intros Q; apply in_app_or in Q; destruct Q as [Q|Q]; [auto|apply (D q); [left; reflexivity|exact Q]]|apply IHU; intros; apply D; right; auto].
Qed.
Lemma at_nodup : forall i1 i2, NoDup (och_at A ns t i1 i2) /\ forall q, In q (och_at A ns t i1 i2) -> exists a b, q = (i1, i2, a, b).
Proof.
  intros i1 i2. unfold och_at. assert (Ge : forall j, In j (och_SP A t i1 i2) -> 1 <= j) by (intros j Hj; unfold och_SP in Hj; apply filter_In in Hj; destruct Hj as [Hj _]; apply in_seq in Hj; lia).
  destruct (och_SP A t i1 i2) as [|j1 SP]; [split; [constructor|intros q []]|]. assert (H1 : 1 <= j1) by (apply Ge; left; reflexivity). destruct (och_consec A (j1 :: SP)); [|split; [constructor|intros q []]].
  destruct (och_TP A ns j1 _) as [|f TP]; [split; [constructor|intros q []]|]. destruct (_ && _); [|split; [constructor|intros q []]].
  destruct (left_nodup (S TL) i1 i2 j1 (last (j1 :: SP) 0) j1 H1) as [N B]. split; [exact N|]. intros q Q. destruct (B _ Q) as [a [b [E _]]]. exists a, b. exact E.
Qed.
Lemma spans_nodup : NoDup (och_spans A ns t).
Proof.
  unfold och_spans. apply nodup_fm; [apply seq_NoDup| |].
  - intros i1 _. apply nodup_fm; [apply seq_NoDup|intros i2 _; apply at_nodup|]. intros i2 i2' q _ _ Q Q'. apply at_nodup in Q, Q'. destruct Q as [a [b ->]], Q' as [a' [b' Q']]. congruence.
  - intros i1 i1' q _ _ Q Q'. apply in_flat_map in Q, Q'. destruct Q as [i2 [_ Q]], Q' as [i2' [_ Q']]. apply at_nodup in Q, Q'. destruct Q as [a [b ->]], Q' as [a' [b' Q']]. congruence.
Qed.
End Och.
