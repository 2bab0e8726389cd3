(** The estimate of a hypothesis is the best way to complete it. *)
From Coq Require Import ZArith Arith List Bool Lia Sorted Permutation.
From Verif Require Import DecSpec DecModel DecGapProofs DecHypProofs HeurSpec HeurModel HeurProofs.
Import ListNotations.
Open Scope nat_scope.
Definition inside (g s : seg) : bool := (fst g <=? fst s) && (snd s <=? snd g).
Lemma total_filter : forall pc (f : seg -> bool) b, total pc b = (total pc (filter f b) + total pc (filter (fun s => negb (f s)) b))%Z.
Proof. intros pc f b. unfold total. induction b as [|x b IH]; cbn [filter map fold_right]; [reflexivity|]. destruct (f x); cbn [negb map fold_right]; lia. Qed.
Lemma covered_dec : forall ss j, covered ss j \/ ~ covered ss j.
Proof. intros ss j. destruct (getKey ss j) eqn:E; [left; now apply getKey_spec|right; now apply getKey_false]. Qed.
(** every uncovered word lies in a gap *)
Lemma gap_exists : forall n ss j, 1 <= j <= n -> ~ covered ss j -> exists g, is_gap n (covered ss) g /\ in_seg g j.
Proof.
  intros n ss j J NC.
  assert (L : exists l, 1 <= l <= j /\ (forall k, l <= k <= j -> ~ covered ss k) /\ (l = 1 \/ covered ss (l - 1))).
  { assert (X : forall d, d < j -> (forall k, j - d <= k <= j -> ~ covered ss k) \/ exists l, 1 <= l <= j /\ (forall k, l <= k <= j -> ~ covered ss k) /\ covered ss (l - 1)).
    { induction d as [|d IH]; intro D; [left; intros k K; now replace k with j by lia|]. destruct IH as [IH|IH]; [lia| |now right].
      destruct (covered_dec ss (j - S d)) as [C|C]; [right; exists (j - d); split; [lia|]; split; [exact IH|now replace (j - d - 1) with (j - S d) by lia]|].
      left. intros k K. destruct (Nat.eq_dec k (j - S d)) as [->|]; [exact C|apply IH; lia]. }
    destruct (X (j - 1)) as [Y|(l & A & B & C)]; [lia| |exists l; auto]. exists 1. split; [lia|]. split; [intros k K; apply Y; lia|now left]. }
  assert (R : exists r, j <= r <= n /\ (forall k, j <= k <= r -> ~ covered ss k) /\ (r = n \/ covered ss (r + 1))).
  { assert (X : forall d, j + d <= n -> (forall k, j <= k <= j + d -> ~ covered ss k) \/ exists r, j <= r <= n /\ (forall k, j <= k <= r -> ~ covered ss k) /\ covered ss (r + 1)).
    { induction d as [|d IH]; intro D; [left; intros k K; now replace k with j by lia|]. destruct IH as [IH|IH]; [lia| |now right].
      destruct (covered_dec ss (j + S d)) as [C|C]; [right; exists (j + d); split; [lia|]; split; [exact IH|now replace (j + d + 1) with (j + S d) by lia]|].
      left. intros k K. destruct (Nat.eq_dec k (j + S d)) as [->|]; [exact C|apply IH; lia]. }
    destruct (X (n - j)) as [Y|(r & A & B & C)]; [lia| |exists r; auto]. exists n. split; [lia|]. split; [intros k K; apply Y; lia|now left]. }
  destruct L as (l & L1 & L2 & L3), R as (r & R1 & R2 & R3). exists (l, r). unfold is_gap, in_seg. cbn [fst snd]. split; [|lia]. split; [lia|]. split; [lia|]. split; [|auto].
  intros k K. destruct (Nat.le_gt_cases k j); [apply L2; lia|apply R2; lia].
Qed.
(** a segment of uncovered words meeting a gap lies inside it *)
Lemma seg_in_gap : forall n ss g s j, is_gap n (covered ss) g -> 1 <= fst s <= snd s -> snd s <= n -> (forall k, in_seg s k -> ~ covered ss k) -> in_seg g j -> in_seg s j -> inside g s = true.
Proof.
  intros n ss g s j (G1 & G2 & G3 & G4 & G5) S1 S2 S3 J1 J2. unfold inside, in_seg in *. apply andb_true_iff. rewrite !Nat.leb_le. split.
  - destruct (Nat.le_gt_cases (fst g) (fst s)); auto. destruct G4 as [G4|G4]; [lia|]. destruct (S3 (fst g - 1)); [lia|auto].
  - destruct (Nat.le_gt_cases (snd s) (snd g)); auto. destruct G5 as [G5|G5]; [lia|]. destruct (S3 (snd g + 1)); [lia|auto].
Qed.
(** disjoint segments that cover a stretch are worth at most its best cutting *)
Lemma cover_le : forall pc B, (forall l r, 1 <= l <= r -> (r <= B)%nat -> exists v, best_tiling pc l r v) -> forall k l r cs, S r - l = k -> l <= r -> 1 <= l -> r <= B ->
  Forall (fun s => l <= fst s <= snd s /\ snd s <= r) cs -> ForallOrdPairs disjoint cs -> (forall j, l <= j <= r -> covered cs j) -> exists ss, tiles l r ss /\ total pc cs = total pc ss.
Proof.
  intros pc B BT k. induction k as [k IH] using lt_wf_ind. intros l r cs K L L1 RB F D C.
  destruct (C l) as (s & S & I); [lia|]. apply in_split in S. destruct S as (c1 & c2 & ->). rewrite Forall_forall in F. assert (FS : fst s = l) by (specialize (F s (in_elt _ _ _)); unfold in_seg in I; lia).
  pose proof (F s (in_elt _ _ _)) as F0.
  assert (DS : forall t, In t (c1 ++ c2) -> disjoint s t).
  { clear -D. induction c1 as [|x c1 IH]; cbn [app] in *; intros t T; inversion D; subst.
    - rewrite Forall_forall in H1. auto.
    - destruct T as [->|T]; [|auto]. rewrite Forall_forall in H1. intros j J. apply (H1 s (in_elt _ _ _) j). tauto. }
  assert (D' : ForallOrdPairs disjoint (c1 ++ c2)).
  { clear -D. induction c1 as [|x c1 IH]; cbn [app] in *; inversion D; subst; [auto|]. constructor; [|auto]. rewrite Forall_forall in *. intros t T. apply H1. apply in_app_iff in T. apply in_app_iff. destruct T; [auto|right; now right]. }
  assert (TT : total pc (c1 ++ s :: c2) = (pc l (snd s) + total pc (c1 ++ c2))%Z) by (rewrite !total_app; unfold total; cbn [map fold_right]; rewrite FS; lia).
  destruct (Nat.eq_dec (snd s) r) as [E|NE].
  - exists [(l, r)]. split; [now constructor|]. assert (c1 ++ c2 = []). { destruct (c1 ++ c2) as [|t q] eqn:Q; auto. exfalso. assert (T : In t (c1 ++ c2)) by (rewrite Q; now left). specialize (DS t (or_introl eq_refl) (fst t)).
      assert (In t (c1 ++ s :: c2)) by (apply in_app_iff in T; apply in_app_iff; destruct T; [auto|right; now right]). specialize (F t H). apply DS. unfold in_seg. lia. }
    rewrite TT, H, E. unfold total. cbn [map fold_right fst snd]. lia.
  - destruct (IH (S r - (snd s + 1))) with (l := snd s + 1) (r := r) (cs := c1 ++ c2) as (ss & T & E); try lia; auto.
    + apply Forall_forall. intros t T. specialize (DS t T). assert (I2 : In t (c1 ++ s :: c2)) by (apply in_app_iff in T; apply in_app_iff; destruct T; [auto|right; now right]). specialize (F t I2).
      destruct (Nat.le_gt_cases (snd s + 1) (fst t)); [lia|]. exfalso. apply (DS (fst t)). unfold in_seg. lia.
    + intros j Jr. destruct (C j) as (t & T & I2); [lia|]. exists t. split; [|auto]. apply in_app_iff in T. apply in_app_iff. destruct T as [|[->|]]; auto. unfold in_seg in I2. lia.
    + exists ((l, snd s) :: ss). split; [constructor; [lia|auto]|]. rewrite TT, E. unfold total. cbn [map fold_right fst snd]. lia.
Qed.
Lemma fop_filter : forall (f : seg -> bool) l, ForallOrdPairs disjoint l -> ForallOrdPairs disjoint (filter f l).
Proof. intros f l H. induction H as [|x l F H IH]; cbn [filter]; [constructor|]. destruct (f x); [constructor; [|auto]|auto]. rewrite Forall_forall in *. intros y Y. apply F. now apply filter_In in Y. Qed.
Lemma fop_tail : forall (a b : list seg), ForallOrdPairs disjoint (a ++ b) -> ForallOrdPairs disjoint b.
Proof. induction a as [|x a IH]; intros b H; [auto|]. cbn [app] in H. inversion H; subst. auto. Qed.
Lemma fop_cross : forall (a b : list seg) s t, ForallOrdPairs disjoint (a ++ b) -> In s a -> In t b -> disjoint s t.
Proof. induction a as [|x a IH]; intros b s t H S T; [destruct S|]. cbn [app] in H. inversion H; subst. destruct S as [->|S]; [|eauto]. rewrite Forall_forall in H2. apply H2, in_app_iff. auto. Qed.
Lemma fop_app : forall (a b : list seg), ForallOrdPairs disjoint a -> ForallOrdPairs disjoint b -> (forall s t, In s a -> In t b -> disjoint s t) -> ForallOrdPairs disjoint (a ++ b).
Proof.
  induction a as [|x a IH]; intros b A B X; [auto|]. cbn [app]. inversion A; subst. constructor; [apply Forall_app; split; [auto|apply Forall_forall; intros t T; apply X; [now left|auto]]|]. apply IH; auto. intros s t S T. apply X; [now right|auto].
Qed.
Section G.
Variables (n : nat) (pc : nat -> nat -> Z) (B : nat -> nat -> Z).
Hypothesis BT : forall l r, 1 <= l <= r -> r <= n -> best_tiling pc l r (B l r).
Definition gsum (gs : list seg) : Z := fold_right Z.add 0%Z (map (fun g => B (fst g) (snd g)) gs).
Definition gaps_sep := StronglySorted (fun a b : seg => snd a + 1 < fst b).
(** upper bound *)
Lemma gaps_upper : forall gs b, gaps_sep gs -> (forall g, In g gs -> 1 <= fst g <= snd g /\ snd g <= n) -> Forall (fun s => 1 <= fst s <= snd s /\ snd s <= n) b -> ForallOrdPairs disjoint b ->
  (forall s, In s b -> exists g, In g gs /\ inside g s = true) -> (forall g j, In g gs -> in_seg g j -> covered b j) -> (total pc b <= gsum gs)%Z.
Proof.
  induction gs as [|g gs IH]; intros b SG RG RB D IN CV.
  - destruct b as [|s b]; [unfold total, gsum; cbn; lia|]. destruct (IN s (or_introl eq_refl)) as (g & [] & _).
  - rewrite (total_filter pc (inside g)). inversion SG; subst. unfold gsum. cbn [map fold_right]. rewrite Forall_forall in RB, H2. pose proof (RG g (or_introl eq_refl)) as Rg.
    assert (X : (total pc (filter (inside g) b) <= B (fst g) (snd g))%Z).
    { destruct (cover_le pc n) with (k := S (snd g) - fst g) (l := fst g) (r := snd g) (cs := filter (inside g) b) as (ss & T & ->); try lia; auto.
      - intros l r L R. exists (B l r). auto.
      - apply Forall_forall. intros s S. apply filter_In in S. destruct S as [S S2]. unfold inside in S2. apply andb_true_iff in S2. rewrite !Nat.leb_le in S2. specialize (RB s S). lia.
      - now apply fop_filter.
      - intros j Jr. destruct (CV g j (or_introl eq_refl)) as (s & S & I); [unfold in_seg; lia|]. exists s. split; [|auto]. apply filter_In. split; [auto|]. destruct (IN s S) as (g' & [<-|G'] & I'); [auto|].
        exfalso. specialize (H2 g' G'). unfold inside in I'. apply andb_true_iff in I'. rewrite !Nat.leb_le in I'. unfold in_seg in I. lia.
      - apply BT; [lia|lia|auto]. }
    assert (Y : (total pc (filter (fun s => negb (inside g s)) b) <= gsum gs)%Z).
    { apply IH; auto.
      - intros g' G'. apply RG. now right.
      - apply Forall_forall. intros s S. apply filter_In in S. apply RB. tauto.
      - now apply fop_filter.
      - intros s S. apply filter_In in S. destruct S as [S N]. destruct (IN s S) as (g' & [<-|G'] & I'); [rewrite I' in N; discriminate|eauto].
      - intros g' j G' I. destruct (CV g' j (or_intror G') I) as (s & S & I2). exists s. split; [|auto]. apply filter_In. split; [auto|]. apply negb_true_iff. destruct (inside g s) eqn:Q; auto. exfalso.
        specialize (H2 g' G'). unfold inside in Q. apply andb_true_iff in Q. rewrite !Nat.leb_le in Q. unfold in_seg in *. lia. }
    unfold gsum in Y. lia.
Qed.
Lemma tiles_props : forall l r ss, tiles l r ss -> Forall (fun s => l <= fst s <= snd s /\ snd s <= r) ss /\ ForallOrdPairs disjoint ss /\ forall j, l <= j <= r -> covered ss j.
Proof.
  induction 1 as [l r L|l m r ss L T (F & D & C)].
  - split; [repeat constructor; cbn; lia|]. split; [repeat constructor|]. intros j J. exists (l, r). split; [now left|unfold in_seg; cbn; lia].
  - pose proof (tiles_le _ _ _ T). rewrite Forall_forall in F. split; [constructor; [cbn; lia|apply Forall_forall; intros s S; specialize (F s S); lia]|]. split.
    + constructor; [|auto]. apply Forall_forall. intros s S j (J1 & J2). specialize (F s S). unfold in_seg in *. cbn in *. lia.
    + intros j J. destruct (Nat.le_gt_cases j m); [exists (l, m); split; [now left|unfold in_seg; cbn; lia]|]. destruct (C j) as (s & S & I); [lia|]. exists s. split; [now right|auto].
Qed.
(** it is reached *)
Lemma gaps_reach : forall gs, gaps_sep gs -> (forall g, In g gs -> 1 <= fst g <= snd g /\ snd g <= n) -> exists b, total pc b = gsum gs /\ ForallOrdPairs disjoint b /\
  (forall s, In s b -> fst s <= snd s /\ exists g, In g gs /\ inside g s = true) /\ (forall g j, In g gs -> in_seg g j -> covered b j).
Proof.
  induction gs as [|g gs IH]; intros SG RG.
  - exists []. split; [reflexivity|]. split; [constructor|]. split; [intros s []|intros g j []].
  - inversion SG; subst. destruct IH as (b & E & D & IN & CV); [auto|intros g' G'; apply RG; now right|]. pose proof (RG g (or_introl eq_refl)) as Rg.
    destruct (BT (fst g) (snd g)) as ((ss & T & ET) & _); [lia|lia|]. destruct (tiles_props _ _ _ T) as (F & D2 & C2). rewrite Forall_forall in F, H2. exists (ss ++ b). split; [|split; [|split]].
    + rewrite total_app, E, ET. unfold gsum. cbn [map fold_right]. reflexivity.
    + apply fop_app; auto. intros s t S T0 j (J1 & J2). specialize (F s S). destruct (IN t T0) as (_ & g' & G' & I'). specialize (H2 g' G'). unfold inside in I'. apply andb_true_iff in I'. rewrite !Nat.leb_le in I'. unfold in_seg in *. lia.
    + intros s S. apply in_app_iff in S. destruct S as [S|S].
      * specialize (F s S). split; [lia|]. exists g. split; [now left|]. unfold inside. apply andb_true_iff. rewrite !Nat.leb_le. lia.
      * destruct (IN s S) as (A1 & g' & G' & I'). split; [auto|]. exists g'. split; [now right|auto].
    + intros g' j [<-|G'] I; [destruct (C2 j) as (s & S & I2); [unfold in_seg in I; lia|]|destruct (CV g' j G' I) as (s & S & I2)]; exists s; (split; [apply in_app_iff; auto|auto]).
Qed.
Lemma gaps_facts : forall ss, gaps_sep (extract_gaps n (getKey ss)) /\ forall g, In g (extract_gaps n (getKey ss)) <-> is_gap n (covered ss) g.
Proof.
  intro ss. destruct (extract_gaps_spec (getKey ss) n) as (S & M). split; [exact S|]. intro g. rewrite M. unfold is_gap. rewrite !getKey_spec.
  split; intros (B1 & B2 & B3 & B4 & B5); (split; [assumption|]; split; [assumption|]; split; [|split; assumption]); intros j J X; apply (B3 j J); now apply getKey_spec.
Qed.
Theorem gsum_best : forall ss, well_segmented n ss -> let v := gsum (extract_gaps n (getKey ss)) in
  (exists b, completes n ss b /\ total pc b = v) /\ forall b, completes n ss b -> (total pc b <= v)%Z.
Proof.
  intros ss (F & D) v. destruct (gaps_facts ss) as (SG & MG). set (gs := extract_gaps n (getKey ss)) in *. assert (RG : forall g, In g gs -> 1 <= fst g <= snd g /\ snd g <= n) by (intros g G; apply MG in G; destruct G as (A & B0 & _); auto).
  split.
  - destruct (gaps_reach gs SG RG) as (b & E & D2 & IN & CV). exists b. split; [|exact E]. split; [split|].
    + apply Forall_app. split; [auto|]. apply Forall_forall. intros s S. destruct (IN s S) as (A1 & g & G & I). specialize (RG g G). unfold inside in I. apply andb_true_iff in I. rewrite !Nat.leb_le in I. lia.
    + apply fop_app; auto. intros s t S T j (J1 & J2). destruct (IN t T) as (A1 & g & G & I). apply MG in G. destruct G as (_ & _ & G3 & _). unfold inside in I. apply andb_true_iff in I. rewrite !Nat.leb_le in I.
      apply (G3 j); [unfold in_seg in *; lia|exists s; auto].
    + intros j J. destruct (covered_dec ss j) as [(s & S & I)|N]; [exists s; split; [apply in_app_iff; auto|auto]|]. destruct (gap_exists n ss j J N) as (g & G & I). apply MG in G. destruct (CV g j G I) as (s & S & I2). exists s. split; [apply in_app_iff; auto|auto].
  - intros b ((F2 & D2) & C). apply Forall_app in F2. destruct F2 as [_ F2]. apply gaps_upper; auto.
    + eapply fop_tail; eauto.
    + intros s S. rewrite Forall_forall in F2. pose proof (F2 s S) as R. assert (U : forall k, in_seg s k -> ~ covered ss k) by (intros k I (t & T & I2); apply (fop_cross _ _ t s D2 T S k); auto).
      destruct (gap_exists n ss (fst s)) as (g & G & I); [lia|apply U; unfold in_seg; lia|]. exists g. split; [now apply MG|]. apply (seg_in_gap n ss g s (fst s)); auto; try lia. unfold in_seg. lia.
    + intros g j G I. apply MG in G. destruct G as (G1 & G2 & G3 & _). destruct (C j) as (s & S & I2); [unfold in_seg in I; lia|]. apply in_app_iff in S. destruct S as [S|S]; [destruct (G3 j I); exists s; auto|exists s; auto].
Qed.
End G.
