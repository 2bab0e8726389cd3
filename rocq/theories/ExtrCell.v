(** What the cells of the extraction table hold. *)
From Coq Require Import NArith Arith List Bool Lia.
From Verif Require Import AligSpec AligModel ExtrSpec ExtrModel ExtrBase.
Import ListNotations.
Section Cell.
Context {W : Type}.
Variables (A : wam) (ns t : list W) (P : epars).
Hypothesis DI : wI A = nslen ns - 1.
Hypothesis DJ : wJ A = tlen t.
Notation TL := (tlen t).
Notation NL := (nslen ns).
Notation lk := (lnk A).
(** leftmost and rightmost link of a target word *)
Definition extent (y l r : nat) : Prop :=
  (l = NL /\ r = 0 /\ forall i, i < NL - 1 -> lk i y = false) \/
  (1 <= l <= r /\ r < NL /\ lk (l - 1) y = true /\ lk (r - 1) y = true /\ forall i, i < NL - 1 -> lk i y = true -> l <= i + 1 <= r).
Lemma ext_links_spec : forall y, exists c l r, ext_links A ns y = (c, l, r) /\ length c = NL /\
  (forall k, tst c k = true <-> 1 <= k < NL /\ lk (k - 1) y = true) /\ extent y l r.
Proof.
  intros y. unfold ext_links.
  assert (G : forall n a s, a + n <= NL - 1 ->
    (let '(c, l, r) := s in length c = NL /\ (forall k, tst c k = true <-> 1 <= k < S a /\ lk (k - 1) y = true) /\
      ((l = NL /\ r = 0 /\ forall i, i < a -> lk i y = false) \/ (1 <= l <= r /\ r < S a /\ lk (l - 1) y = true /\ lk (r - 1) y = true /\ forall i, i < a -> lk i y = true -> l <= i + 1 <= r))) ->
    (let '(c, l, r) := fold_left (ext_step A y) (seq a n) s in length c = NL /\ (forall k, tst c k = true <-> 1 <= k < S (a + n) /\ lk (k - 1) y = true) /\
      ((l = NL /\ r = 0 /\ forall i, i < a + n -> lk i y = false) \/ (1 <= l <= r /\ r < S (a + n) /\ lk (l - 1) y = true /\ lk (r - 1) y = true /\ forall i, i < a + n -> lk i y = true -> l <= i + 1 <= r)))).
  { intros n; induction n as [|n IH]; intros a s Hn I; [rewrite Nat.add_0_r; exact I|]. cbn [seq fold_left].
    replace (a + S n) with (S a + n) by lia. apply IH; [lia|]. destruct s as [[c l] r]. destruct I as [I1 [I2 I3]]. cbn [ext_step].
    destruct (lk a y) eqn:La.
    - split; [rewrite cset_len; exact I1|]. split.
      + intros k. rewrite cset_tst, I1. destruct (Nat.eqb_spec k (a + 1)) as [->|N]; cbn [andb].
        * destruct (Nat.ltb_spec (a + 1) NL) as [B|B]; [|lia]. split; [intros _|reflexivity]. replace (a + 1 - 1) with a by lia. split; [lia|exact La].
        * rewrite I2. split; intros [H1 H2]; (split; [|exact H2]); [lia|]. destruct (Nat.eq_dec k (S a)); [exfalso; lia|lia].
      + right. destruct I3 as [[-> [-> I3]]|[I3 [I4 [I5 [I6 I7]]]]].
        * destruct (Nat.ltb_spec (a + 1) NL) as [B|B]; [|lia]. destruct (Nat.ltb_spec 0 (a + 1)) as [B'|B']; [|lia]. replace (a + 1 - 1) with a by lia.
          split; [lia|]. split; [lia|]. split; [exact La|]. split; [exact La|]. intros i Hi Q. destruct (Nat.eq_dec i a) as [->|N]; [lia|]. rewrite I3 in Q by lia. discriminate.
        * destruct (Nat.ltb_spec (a + 1) l) as [B|B]; [lia|]. destruct (Nat.ltb_spec r (a + 1)) as [B'|B']; [|lia]. replace (a + 1 - 1) with a by lia.
          split; [lia|]. split; [lia|]. split; [exact I5|]. split; [exact La|]. intros i Hi Q. destruct (Nat.eq_dec i a) as [->|N]; [lia|]. specialize (I7 i ltac:(lia) Q). lia.
    - split; [exact I1|]. split.
      + intros k. rewrite I2. split; intros [H1 H2]; (split; [|exact H2]); [lia|]. destruct (Nat.eq_dec k (S a)) as [->|N]; [exfalso|lia].
        replace (S a - 1) with a in H2 by lia. congruence.
      + destruct I3 as [[-> [-> I3]]|[I3 [I4 [I5 [I6 I7]]]]]; [left|right].
        * split; [reflexivity|]. split; [reflexivity|]. intros i Hi. destruct (Nat.eq_dec i a) as [->|N]; [exact La|apply I3; lia].
        * split; [lia|]. split; [lia|]. split; [exact I5|]. split; [exact I6|]. intros i Hi Q. destruct (Nat.eq_dec i a) as [->|N]; [congruence|]. apply I7; [lia|exact Q]. }
  specialize (G (NL - 1) 0 (repeat false NL, NL, 0) ltac:(lia)). cbn [plus] in G.
  destruct (fold_left _ _ _) as [[c l] r]. exists c, l, r. split; [reflexivity|].
  destruct G as [G1 [G2 G3]].
  - split; [apply repeat_length|]. split; [|left; repeat split; intros; lia]. intros k. rewrite tst_repeat. split; [discriminate|lia].
  - split; [exact G1|]. split.
    + intros k. rewrite G2. split; intros [H1 H2]; (split; [lia|exact H2]).
    + destruct G3 as [G3|[I3 [I4 [I5 [I6 I7]]]]]; [left; exact G3|right]. split; [exact I3|]. split; [lia|]. auto.
Qed.
Lemma ext_fill_spec : forall l r c, length c = NL -> length (ext_fill A ns l r c) = NL /\
  forall k, tst (ext_fill A ns l r c) k = true <-> tst c k = true \/ (1 <= k < NL /\ zfert A k = true /\ l < k < r).
Proof.
  intros l r c L. unfold ext_fill.
  assert (G : (fun a c' => length c' = NL /\ forall k, tst c' k = true <-> tst c k = true \/ (1 <= k < a /\ k < NL /\ zfert A k = true /\ l < k < r)) (1 + (NL - 1))
     (fold_left (fun c i => if zfert A i && (l <? i) && (i <? r) then cset c i else c) (seq 1 (NL - 1)) c)).
  { apply fold_seq_inv.
    - intros a c' Ha [I1 I2]. destruct (zfert A a && (l <? a) && (a <? r)) eqn:Q.
      + apply andb_true_iff in Q. destruct Q as [Q Q3]. apply andb_true_iff in Q. destruct Q as [Q1 Q2]. apply Nat.ltb_lt in Q2, Q3.
        split; [rewrite cset_len; exact I1|]. intros k. rewrite cset_tst, I1. destruct (Nat.eqb_spec k a) as [->|N]; cbn [andb].
        * destruct (Nat.ltb_spec a NL); [|lia]. split; [intros _; right; repeat split; auto; lia|reflexivity].
        * rewrite I2. split; (intros [H|H]; [left; exact H|right; repeat split; try apply H; lia]).
      + split; [exact I1|]. intros k. rewrite I2. split; (intros [H|H]; [left; exact H|right; repeat split; try apply H; try lia]).
        destruct (Nat.eq_dec k a) as [->|N]; [exfalso|lia]. destruct H as [_ [_ [H1 H2]]]. rewrite H1 in Q. cbn [andb] in Q.
        destruct (Nat.ltb_spec l a); [|lia]. destruct (Nat.ltb_spec a r); [|lia]. discriminate.
    - split; [exact L|]. intros k. split; [auto|]. intros [H|H]; [exact H|lia]. }
  cbv beta in G. destruct G as [G1 G2]. split; [exact G1|]. intros k. rewrite G2. split; (intros [H|H]; [left; exact H|right; repeat split; try apply H; lia]).
Qed.
Lemma left_loop_spec : forall i c, i < length c -> exists i' c', left_loop A i c = (i', c') /\ i' <= i /\ length c' = length c /\
  (forall k, tst c' k = true <-> tst c k = true \/ i' < k <= i) /\ (forall k, i' < k <= i -> zfert A k = true) /\ (i' = 0 \/ zfert A i' = false).
Proof.
  induction i as [|i IH]; intros c L; cbn [left_loop].
  - exists 0, c. split; [reflexivity|]. split; [lia|]. split; [reflexivity|]. split; [|split; [intros; lia|left; reflexivity]]. intros k. split; [auto|]. intros [H|H]; [exact H|lia].
  - destruct (zfert A (S i)) eqn:Z.
    + destruct (IH (cset c (S i))) as [i' [c' [E [H1 [H2 [H3 [H4 H5]]]]]]]; [rewrite cset_len; lia|]. exists i', c'. split; [exact E|]. split; [lia|]. rewrite cset_len in H2. split; [exact H2|].
      split; [|split; [|exact H5]].
      * intros k. rewrite H3, cset_tst. destruct (Nat.eqb_spec k (S i)) as [->|N]; cbn [andb].
        -- destruct (Nat.ltb_spec (S i) (length c)); [|lia]. split; [intros _; right; lia|intros _; left; reflexivity].
        -- split; (intros [H|H]; [left; exact H|right; lia]).
      * intros k Hk. destruct (Nat.eq_dec k (S i)) as [->|N]; [exact Z|apply H4; lia].
    + exists (S i), c. split; [reflexivity|]. split; [lia|]. split; [reflexivity|]. split; [|split; [intros; lia|right; exact Z]]. intros k. split; [auto|]. intros [H|H]; [exact H|lia].
Qed.
Lemma right_loop_spec : forall n i c, i + n <= length c -> exists i' c', right_loop A n i c = (i', c') /\ i <= i' <= i + n /\ length c' = length c /\
  (forall k, tst c' k = true <-> tst c k = true \/ i <= k < i') /\ (forall k, i <= k < i' -> zfert A k = true) /\ (i' = i + n \/ zfert A i' = false).
Proof.
  induction n as [|n IH]; intros i c L; cbn [right_loop].
  - exists i, c. split; [reflexivity|]. split; [lia|]. split; [reflexivity|]. split; [|split; [intros; lia|left; lia]]. intros k. split; [auto|]. intros [H|H]; [exact H|lia].
  - destruct (zfert A i) eqn:Z.
    + destruct (IH (S i) (cset c i)) as [i' [c' [E [H1 [H2 [H3 [H4 H5]]]]]]]; [rewrite cset_len; lia|]. exists i', c'. split; [exact E|]. split; [lia|]. rewrite cset_len in H2. split; [exact H2|].
      split; [|split; [|destruct H5 as [H5|H5]; [left; lia|right; exact H5]]].
      * intros k. rewrite H3, cset_tst. destruct (Nat.eqb_spec k i) as [->|N]; cbn [andb].
        -- destruct (Nat.ltb_spec i (length c)); [|lia]. split; [intros _; right; lia|intros _; left; reflexivity].
        -- split; (intros [H|H]; [left; exact H|right; lia]).
      * intros k Hk. destruct (Nat.eq_dec k i) as [->|N]; [exact Z|apply H4; lia].
    + exists i, c. split; [reflexivity|]. split; [lia|]. split; [reflexivity|]. split; [|split; [intros; lia|right; exact Z]]. intros k. split; [auto|]. intros [H|H]; [exact H|lia].
Qed.
Lemma linked_not_zfert : forall k y, 1 <= k < NL -> y < TL -> lk (k - 1) y = true -> zfert A k = false.
Proof. intros k y Hk Hy L. destruct (zfert A k) eqn:Z; [|reflexivity]. rewrite (zfert_spec A ns t DI DJ k Hk) in Z. rewrite Z in L by exact Hy. discriminate. Qed.
(** the coverages in the cell of a single target word *)
Definition base_cov (y l r : nat) (c : cov) : Prop :=
  length c = NL /\ forall k, tst c k = true <-> 1 <= k < NL /\ (lk (k - 1) y = true \/ (zfert A k = true /\ l < k < r)).
Lemma ext_cell_spec : forall x y, y < TL -> exists l r cb le ri, extent y l r /\ base_cov y l r cb /\
  ext_cell A ns t P x y = mkca cb (validCoverageForCell A ns t P cb x y && (0 <? lenNonSpur A t x y)) :: le ++ ri /\
  (forall a, In a le -> c_ok a = validCoverageForCell A ns t P (c_cov a) x y /\ l < NL /\ length (c_cov a) = NL /\
     exists i, i < l /\ (forall k, i < k < l -> zfert A k = true) /\ (forall k, tst (c_cov a) k = true <-> tst cb k = true \/ i < k < l)) /\
  (forall a, In a ri -> c_ok a = validCoverageForCell A ns t P (c_cov a) x y /\ 0 < r /\ length (c_cov a) = NL /\
     exists i, r < i <= NL /\ (forall k, r < k < i -> zfert A k = true) /\ (i = NL \/ zfert A i = false) /\ (forall k, tst (c_cov a) k = true <-> tst cb k = true \/ r < k < i)) /\
  (0 < r -> r + 1 < NL -> zfert A (r + 1) = true -> exists a, In a ri).
Proof.
  intros x y Hy. unfold ext_cell. destruct (ext_links_spec y) as [c0 [l [r [E [L0 [T0 X]]]]]]. rewrite E.
  destruct (ext_fill_spec l r c0 L0) as [L1 T1]. set (cb := ext_fill A ns l r c0) in *.
  assert (B : base_cov y l r cb). { split; [exact L1|]. intros k. rewrite T1, T0. split; [intros [[H1 H2]|[H1 H2]]; (split; [exact H1|auto])|]. intros [H1 [H2|H2]]; [left|right]; auto. }
  exists l, r, cb.
  eexists. eexists. split; [exact X|]. split; [exact B|]. split; [reflexivity|]. split; [|split].
  - intros a Ha. destruct ((0 <? l) && negb (l =? NL)) eqn:Q; [|destruct Ha]. apply andb_true_iff in Q. destruct Q as [Q1 Q2]. apply Nat.ltb_lt in Q1. apply negb_true_iff, Nat.eqb_neq in Q2.
    assert (Hl : l < NL) by (destruct X as [X|X]; lia).
    destruct (left_loop_spec (l - 1) cb) as [i [c' [E' [H1 [H2 [H3 [H4 H5]]]]]]]; [lia|]. rewrite E' in Ha. destruct (zfert A (i + 1)); [|destruct Ha].
    destruct Ha as [<-|[]]. cbn [c_cov c_ok]. split; [reflexivity|]. split; [exact Hl|]. split; [lia|]. exists i. split; [lia|]. split; [intros; apply H4; lia|]. intros k. rewrite H3. split; (intros [H|H]; [left; exact H|right; lia]).
  - intros a Ha. destruct ((r <? NL - 1) && negb (r =? 0)) eqn:Q; [|destruct Ha]. apply andb_true_iff in Q. destruct Q as [Q1 Q2]. apply Nat.ltb_lt in Q1. apply negb_true_iff, Nat.eqb_neq in Q2.
    destruct (right_loop_spec (NL - (r + 1)) (r + 1) cb) as [i [c' [E' [H1 [H2 [H3 [H4 H5]]]]]]]; [lia|]. rewrite E' in Ha. destruct (zfert A (i - 1)); [|destruct Ha].
    destruct Ha as [<-|[]]. cbn [c_cov c_ok]. split; [reflexivity|]. split; [lia|]. split; [lia|]. exists i. split; [lia|]. split; [intros; apply H4; lia|]. split; [destruct H5 as [H5|H5]; [left; lia|right; exact H5]|].
    intros k. rewrite H3. split; (intros [H|H]; [left; exact H|right; lia]).
  - intros Hr Hr1 Z. destruct (Nat.ltb_spec r (NL - 1)) as [_|Q]; [|lia]. destruct (Nat.eqb_spec r 0) as [Q|_]; [lia|]. cbn [andb negb].
    destruct (right_loop_spec (NL - (r + 1)) (r + 1) cb) as [i [c' [E' [H1 [H2 [H3 [H4 H5]]]]]]]; [lia|]. rewrite E'.
    assert (i <> r + 1) by (intros ->; destruct H5 as [H5|H5]; [lia|congruence]). rewrite H4 by lia. eexists; left; reflexivity.
Qed.
(** invariant of the coverages *)
Definition CI (s y : nat) (c : cov) : Prop :=
  length c = NL /\
  (forall i j, i < NL - 1 -> s <= j <= y -> lk i j = true -> tst c (i + 1) = true) /\
  (forall k, tst c k = true -> 1 <= k < NL /\ (zfert A k = true \/ exists j, s <= j <= y /\ lk (k - 1) j = true)) /\
  ((exists k, tst c k = true) -> exists i j, i < NL - 1 /\ s <= j <= y /\ lk i j = true).
Lemma extent_link : forall y l r, extent y l r -> l < NL \/ 0 < r -> exists i, i < NL - 1 /\ lk i y = true.
Proof. intros y l r [[-> [-> _]]|[H1 [H2 [H3 _]]]] H; [lia|]. exists (l - 1). split; [lia|exact H3]. Qed.
Lemma base_CI : forall y l r cb, extent y l r -> base_cov y l r cb -> CI y y cb.
Proof.
  intros y l r cb X [B1 B2]. split; [exact B1|]. split; [|split].
  - intros i j Hi Hj L. assert (j = y) by lia. subst j. apply B2. replace (i + 1 - 1) with i by lia. split; [lia|auto].
  - intros k H. apply B2 in H. destruct H as [H1 [H2|[H2 _]]]; (split; [exact H1|]); [right; exists y; split; [lia|exact H2]|left; exact H2].
  - intros [k H]. apply B2 in H. destruct H as [H1 [H2|[_ H2]]]; [exists (k - 1), y; split; [lia|split; [lia|exact H2]]|].
    destruct (extent_link y l r X) as [i [Hi L]]; [lia|]. exists i, y. split; [exact Hi|]. split; [lia|exact L].
Qed.
Lemma ext_CI : forall y c cb (Z : nat -> Prop), CI y y cb -> length c = NL -> (exists i, i < NL - 1 /\ lk i y = true) -> (forall k, Z k -> 1 <= k < NL /\ zfert A k = true) ->
  (forall k, tst c k = true <-> tst cb k = true \/ Z k) -> CI y y c.
Proof.
  intros y c cb Z [B1 [B2 [B3 B4]]] L [i0 [Hi0 L0]] HZ T. split; [exact L|]. split; [|split].
  - intros i j Hi Hj Lk. apply T. left. eapply B2; eauto.
  - intros k H. apply T in H. destruct H as [H|H]; [apply B3; exact H|]. apply HZ in H. tauto.
  - intros _. exists i0, y. split; [exact Hi0|]. split; [lia|exact L0].
Qed.
Lemma ext_cell_CI : forall x y a, y < TL -> In a (ext_cell A ns t P x y) -> CI y y (c_cov a) /\ (c_ok a = true -> validCoverageForCell A ns t P (c_cov a) x y = true).
Proof.
  intros x y a Hy H. destruct (ext_cell_spec x y Hy) as [l [r [cb [le [ri [X [B [E [Le [Ri _]]]]]]]]]]. rewrite E in H.
  pose proof (base_CI _ _ _ _ X B) as C. destruct H as [<-|H].
  - cbn. split; [exact C|]. intros Q. apply andb_true_iff in Q. apply Q.
  - apply in_app_or in H. destruct H as [H|H].
    + destruct (Le a H) as [O [L [Ln [i [Hi [Z T]]]]]]. split; [|rewrite O; auto]. apply (ext_CI y (c_cov a) cb (fun k => i < k < l)); auto.
      * apply (extent_link y l r X). left; exact L.
      * intros k Hk. split; [lia|]. apply Z; exact Hk.
    + destruct (Ri a H) as [O [L [Ln [i [Hi [Z [_ T]]]]]]]. split; [|rewrite O; auto]. apply (ext_CI y (c_cov a) cb (fun k => r < k < i)); auto.
      * apply (extent_link y l r X). right; exact L.
      * intros k Hk. split; [lia|]. apply Z; exact Hk.
Qed.
Lemma corr_CI : forall s z y c d, s <= z -> z < y -> CI s z c -> CI (S z) y d -> CI s y (corr c d).
Proof.
  intros s z y c d Hz Hy [C1 [C2 [C3 C4]]] [D1 [D2 [D3 D4]]]. assert (L : length c = length d) by congruence.
  split; [rewrite corr_len; auto|]. split; [|split].
  - intros i j Hi Hj Lk. rewrite corr_tst by exact L. apply orb_true_iff. destruct (Nat.le_gt_cases j z); [left; apply (C2 i j); auto; lia|right; apply (D2 i j); auto; lia].
  - intros k H. rewrite corr_tst in H by exact L. apply orb_true_iff in H. destruct H as [H|H]; [apply C3 in H|apply D3 in H]; destruct H as [H1 [H2|[j [H2 H3]]]]; (split; [exact H1|]); auto;
      right; exists j; (split; [lia|exact H3]).
  - intros [k H]. rewrite corr_tst in H by exact L. apply orb_true_iff in H. destruct H as [H|H].
    + destruct (C4 (ex_intro _ k H)) as [i [j [H1 [H2 H3]]]]. exists i, j. split; [exact H1|]. split; [lia|exact H3].
    + destruct (D4 (ex_intro _ k H)) as [i [j [H1 [H2 H3]]]]. exists i, j. split; [exact H1|]. split; [lia|exact H3].
Qed.
Lemma exist_cell_in : forall l c, exist_cell l c = true <-> exists a, In a l /\ c_cov a = c.
Proof.
  intros l c. unfold exist_cell. rewrite existsb_exists. split; intros [a [H E]]; exists a; (split; [exact H|]); [apply ceqb_eq in E|apply ceqb_eq]; exact E.
Qed.
(** what inner_cell collects *)
Lemma inner_cell_in : forall T x y a, In a (inner_cell A ns t P T x y) ->
  c_ok a = validCoverageForCell A ns t P (c_cov a) x y /\
  exists z b d, TL - x - 1 <= z < y /\ In b (T x z) /\ In d (T (TL - 2 - z) y) /\ c_cov a = corr (c_cov b) (c_cov d).
Proof.
  intros T x y. unfold inner_cell.
  assert (G : forall zs l, (forall a, In a l -> c_ok a = validCoverageForCell A ns t P (c_cov a) x y /\
       exists z b d, TL - x - 1 <= z < y /\ In b (T x z) /\ In d (T (TL - 2 - z) y) /\ c_cov a = corr (c_cov b) (c_cov d)) -> (forall z, In z zs -> TL - x - 1 <= z < y) ->
     forall a, In a (fold_left (fun l z => fold_left (fun l a => fold_left (fun l b => add_cell A ns t P x y l (corr (c_cov a) (c_cov b))) (T (TL - 2 - z) y) l) (T x z) l) zs l) ->
       c_ok a = validCoverageForCell A ns t P (c_cov a) x y /\
       exists z b d, TL - x - 1 <= z < y /\ In b (T x z) /\ In d (T (TL - 2 - z) y) /\ c_cov a = corr (c_cov b) (c_cov d)).
  { induction zs as [|z zs IH]; intros l H Hz; [exact H|]. cbn [fold_left]. apply IH; [|intros; apply Hz; right; auto].
    assert (Rz : TL - x - 1 <= z < y) by (apply Hz; left; reflexivity).
    assert (Gb : forall bs, (forall b, In b bs -> In b (T x z)) -> forall l0, (forall a, In a l0 -> c_ok a = validCoverageForCell A ns t P (c_cov a) x y /\
       exists z b d, TL - x - 1 <= z < y /\ In b (T x z) /\ In d (T (TL - 2 - z) y) /\ c_cov a = corr (c_cov b) (c_cov d)) ->
       forall a, In a (fold_left (fun l a => fold_left (fun l b => add_cell A ns t P x y l (corr (c_cov a) (c_cov b))) (T (TL - 2 - z) y) l) bs l0) -> c_ok a = validCoverageForCell A ns t P (c_cov a) x y /\
       exists z b d, TL - x - 1 <= z < y /\ In b (T x z) /\ In d (T (TL - 2 - z) y) /\ c_cov a = corr (c_cov b) (c_cov d)); [|apply Gb; auto].
    induction bs as [|b bs IHb]; intros Hb l0 H0; [exact H0|]. cbn [fold_left]. apply IHb; [intros; apply Hb; right; auto|].
    assert (Bb : In b (T x z)) by (apply Hb; left; reflexivity).
    assert (Gd : forall ds, (forall d, In d ds -> In d (T (TL - 2 - z) y)) -> forall l1, (forall a, In a l1 -> c_ok a = validCoverageForCell A ns t P (c_cov a) x y /\
       exists z b d, TL - x - 1 <= z < y /\ In b (T x z) /\ In d (T (TL - 2 - z) y) /\ c_cov a = corr (c_cov b) (c_cov d)) ->
       forall a, In a (fold_left (fun l d => add_cell A ns t P x y l (corr (c_cov b) (c_cov d))) ds l1) -> c_ok a = validCoverageForCell A ns t P (c_cov a) x y /\
       exists z b d, TL - x - 1 <= z < y /\ In b (T x z) /\ In d (T (TL - 2 - z) y) /\ c_cov a = corr (c_cov b) (c_cov d)); [|apply Gd; auto].
    induction ds as [|d ds IHd]; intros Hd l1 H1; [exact H1|]. cbn [fold_left]. apply IHd; [intros; apply Hd; right; auto|].
    intros a Ha. unfold add_cell in Ha. destruct (exist_cell l1 _); [apply H1; exact Ha|]. apply in_app_or in Ha. destruct Ha as [Ha|[<-|[]]]; [apply H1; exact Ha|].
    cbn. split; [reflexivity|]. exists z, b, d. split; [exact Rz|]. split; [exact Bb|]. split; [apply Hd; left; reflexivity|reflexivity]. }
  apply G; [intros a []|]. intros z Hz. apply in_seq in Hz. lia.
Qed.
Lemma add_mono : forall x y l c a, In a l -> In a (add_cell A ns t P x y l c).
Proof. intros x y l c a H. unfold add_cell. destruct (exist_cell l c); [exact H|]. apply in_or_app. left; exact H. Qed.
Lemma add_has : forall x y l c, exists a, In a (add_cell A ns t P x y l c) /\ c_cov a = c.
Proof.
  intros x y l c. unfold add_cell. destruct (exist_cell l c) eqn:E; [apply exist_cell_in; exact E|]. eexists. split; [apply in_or_app; right; left; reflexivity|reflexivity].
Qed.
Lemma fold_mono : forall (X : Type) (f : list ca -> X -> list ca) (H : forall l x a, In a l -> In a (f l x)) xs l a, In a l -> In a (fold_left f xs l).
Proof. intros X f H xs; induction xs as [|x xs IH]; intros l a Ha; [exact Ha|]. cbn. apply IH, H, Ha. Qed.
Lemma fold_hit : forall (X : Type) (f : list ca -> X -> list ca) (Q : ca -> Prop) (H : forall l x a, In a l -> In a (f l x)) xs l x0,
  In x0 xs -> (forall l, exists a, In a (f l x0) /\ Q a) -> exists a, In a (fold_left f xs l) /\ Q a.
Proof.
  intros X f Q H xs; induction xs as [|x xs IH]; intros l x0 [] Hf; cbn.
  - subst x0. destruct (Hf l) as [a [Ha Qa]]. exists a. split; [|exact Qa]. apply fold_mono; auto.
  - apply IH with x0; auto.
Qed.
Lemma inner_cell_has : forall T x y z b d, TL - x - 1 <= z < y -> In b (T x z) -> In d (T (TL - 2 - z) y) ->
  exists a, In a (inner_cell A ns t P T x y) /\ c_cov a = corr (c_cov b) (c_cov d).
Proof.
  intros T x y z b d Hz Hb Hd. unfold inner_cell.
  assert (M1 : forall bb l x0 a, In a l -> In a (add_cell A ns t P x y l (corr (c_cov bb) (c_cov x0)))) by (intros; apply add_mono; assumption).
  apply (fold_hit nat) with (x0 := z).
  - intros l z' a Ha. apply fold_mono; [|exact Ha]. intros l' b' a' Ha'. apply fold_mono; [|exact Ha']. intros; apply add_mono; assumption.
  - apply in_seq. lia.
  - intros l. apply (fold_hit ca) with (x0 := b); [|exact Hb|].
    + intros l' b' a' Ha'. apply fold_mono; [|exact Ha']. intros; apply add_mono; assumption.
    + intros l'. apply (fold_hit ca) with (x0 := d); [intros; apply add_mono; assumption|exact Hd|]. intros l2. apply add_has.
Qed.
Lemma table_CI : forall n x y a, y - (TL - x - 1) < n -> inr_cell t x y -> In a (fill_table A ns t P x y) ->
  CI (TL - x - 1) y (c_cov a) /\ (c_ok a = true -> validCoverageForCell A ns t P (c_cov a) x y = true) /\ limit A t P x y = true.
Proof.
  induction n as [|n IH]; intros x y a Hn Hr Ha; [lia|].
  rewrite (proj1 (table_eqn A ns t P DI DJ) x y Hr) in Ha. unfold eqn in Ha. destruct (limit A t P x y) eqn:Lm; [|destruct Ha]. destruct Hr as [Hy Hx].
  destruct (Nat.eqb_spec x (TL - y - 1)) as [E|E].
  - destruct (ext_cell_CI x y a Hy Ha) as [H1 H2]. replace (TL - x - 1) with y by lia. auto.
  - apply inner_cell_in in Ha. destruct Ha as [O [z [b [d [Hz [Hb [Hd Ec]]]]]]]. split; [|split; [rewrite O; auto|reflexivity]]. rewrite Ec. apply (corr_CI _ z); [lia|lia| |].
    + apply (IH x z); [lia|unfold inr_cell; lia|exact Hb].
    + destruct (IH (TL - 2 - z) y d) as [H _]; [lia|unfold inr_cell; lia|exact Hd|]. replace (TL - (TL - 2 - z) - 1) with (S z) in H by lia. exact H.
Qed.
End Cell.
