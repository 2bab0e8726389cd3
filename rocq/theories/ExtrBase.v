(** Bit sets, loops and the shape of the extraction table. *)
From Coq Require Import NArith Arith List Bool Lia.
From Verif Require Import AligSpec AligModel ExtrSpec ExtrModel.
Import ListNotations.
Lemma fold_seq_inv : forall (S_ : Type) (f : S_ -> nat -> S_) (I : nat -> S_ -> Prop) n a s,
  (forall k s, a <= k < a + n -> I k s -> I (S k) (f s k)) -> I a s -> I (a + n) (fold_left f (seq a n) s).
Proof.
  intros S_ f I n; induction n as [|n IH]; intros a s H H0; [rewrite Nat.add_0_r; exact H0|]. cbn [seq fold_left].
  replace (a + S n) with (S a + n) by lia. apply IH; [intros k s' Hk; apply H; lia|]. apply H; [lia|exact H0].
Qed.
Lemma cset_len : forall c i, length (cset c i) = length c.
Proof. induction c as [|b c IH]; intros [|i]; cbn; auto. Qed.
Lemma cset_tst : forall c i k, tst (cset c i) k = (if (k =? i) && (i <? length c) then true else tst c k).
Proof.
  unfold tst. induction c as [|b c IH]; intros i k; [cbn; destruct i, k; cbn; rewrite ?andb_false_r; reflexivity|].
  destruct i as [|i], k as [|k]; try reflexivity. cbn [cset nth length]. rewrite IH. reflexivity.
Qed.
Lemma corr_len : forall c d, length c = length d -> length (corr c d) = length c.
Proof. induction c as [|x c IH]; intros [|y d] H; cbn in *; try discriminate; auto. Qed.
Lemma corr_tst : forall c d k, length c = length d -> tst (corr c d) k = tst c k || tst d k.
Proof.
  unfold tst. induction c as [|x c IH]; intros [|y d] k H; cbn in *; try discriminate; [destruct k; reflexivity|].
  destruct k; [reflexivity|]. apply IH. lia.
Qed.
Lemma ceqb_eq : forall c d, ceqb c d = true <-> c = d.
Proof.
  induction c as [|x c IH]; intros [|y d]; cbn; split; intros H; try discriminate; auto.
  - apply andb_true_iff in H. destruct H as [H1 H2]. apply eqb_prop in H1. apply IH in H2. congruence.
  - injection H as -> ->. rewrite eqb_reflx. apply IH. reflexivity.
Qed.
Lemma cov_ext : forall c d, length c = length d -> (forall k, tst c k = tst d k) -> c = d.
Proof.
  induction c as [|x c IH]; intros [|y d] H E; cbn in H; try discriminate; auto. f_equal; [apply (E 0)|]. apply IH; [lia|]. intros k. apply (E (S k)).
Qed.
Lemma tst_lt : forall c k, tst c k = true -> k < length c.
Proof. unfold tst. intros c k H. destruct (Nat.lt_ge_cases k (length c)) as [L|L]; [exact L|]. rewrite nth_overflow in H by exact L. discriminate. Qed.
Lemma tst_repeat : forall n k, tst (repeat false n) k = false.
Proof. unfold tst. induction n as [|n IH]; intros [|k]; cbn; auto. Qed.
Section Base.
Context {W : Type}.
Variables (A : wam) (ns t : list W) (P : epars).
Hypothesis DI : wI A = nslen ns - 1.
Hypothesis DJ : wJ A = tlen t.
Notation TL := (tlen t).
Notation NL := (nslen ns).
Notation lk := (lnk A).
Lemma zfert_spec : forall k, 1 <= k < NL -> (zfert A k = true <-> forall j, j < TL -> lk (k - 1) j = false).
Proof.
  intros k H. unfold zfert. destruct (Nat.ltb_spec 0 k); [|lia]. destruct (Nat.ltb_spec (k - 1) (wI A)); [|lia]. cbn [andb]. rewrite negb_true_iff. split; intros E.
  - intros j Hj. destruct (lk (k - 1) j) eqn:Q; [|reflexivity]. assert (X : existsb (fun j => lk (k - 1) j) (seq 0 (wJ A)) = true); [|congruence].
    apply existsb_exists. exists j. split; [apply in_seq; lia|exact Q].
  - destruct (existsb _ _) eqn:Q; [|reflexivity]. apply existsb_exists in Q. destruct Q as [j [Hj Q]]. apply in_seq in Hj. rewrite E in Q by lia. discriminate.
Qed.
Lemma zfert_false : forall k, 1 <= k < NL -> zfert A k = false -> exists j, j < TL /\ lk (k - 1) j = true.
Proof.
  intros k H. unfold zfert. destruct (Nat.ltb_spec 0 k); [|lia]. destruct (Nat.ltb_spec (k - 1) (wI A)); [|lia]. cbn [andb]. rewrite negb_false_iff. intros E.
  apply existsb_exists in E. destruct E as [j [Hj E]]. apply in_seq in Hj. exists j. split; [lia|exact E].
Qed.
Lemma linked_lk : forall i j, linked A i j <-> 1 <= i < NL /\ 1 <= j <= TL /\ lk (i - 1) (j - 1) = true.
Proof.
  intros i j. unfold linked, link, AligSpec.inr, lnk, nz. rewrite DI, DJ, negb_true_iff, N.eqb_neq. lia.
Qed.
Lemma lk_linked : forall i j, i < NL - 1 -> j < TL -> lk i j = true -> linked A (i + 1) (j + 1).
Proof. intros i j Hi Hj H. apply linked_lk. replace (i + 1 - 1) with i by lia. replace (j + 1 - 1) with j by lia. split; [lia|]. split; [lia|exact H]. Qed.
(** scan of the coverage *)
Definition St (c : cov) (a lm num : nat) : Prop :=
  (num = 0 /\ lm = NL /\ forall k, 1 <= k < a -> tst c k = false) \/
  (exists i2, lm <= i2 < a /\ 1 <= lm /\ num = S i2 - lm /\ forall k, 1 <= k < a -> (tst c k = true <-> lm <= k <= i2)).
Lemma scan_step : forall c n a lm num lm' num', 1 <= a -> a + n <= NL -> St c a lm num -> scan_cov c (seq a n) lm num = Some (lm', num') -> St c (a + n) lm' num'.
Proof.
  intros c n; induction n as [|n IH]; intros a lm num lm' num' Ha Hn I H; cbn [seq scan_cov] in H.
  - injection H as <- <-. rewrite Nat.add_0_r. exact I.
  - rewrite Nat.add_succ_r. destruct (tst c a) eqn:Ta; cbn [andb negb] in H.
    + destruct I as [[-> [-> I]]|[i2 [B1 [B2 [-> I]]]]].
      * change (0 <? 0) with false in H. cbn [andb] in H. apply (IH (S a)) in H; [exact H|lia|lia|]. right. destruct (Nat.ltb_spec a NL); [|lia]. exists a. split; [lia|]. split; [lia|]. split; [lia|].
        intros k Hk. destruct (Nat.eq_dec k a) as [->|N]; [rewrite Ta; split; auto; lia|]. rewrite I by lia. split; [discriminate|lia].
      * destruct (Nat.ltb_spec 0 (S i2 - lm)); [|lia]. cbn [andb] in H. destruct (tst c (a - 1)) eqn:Tp; cbn [negb] in H; [|discriminate].
        destruct (Nat.ltb_spec a lm); [lia|].
        assert (i2 = a - 1) by (destruct (Nat.eq_dec a 1); [lia|apply I in Tp; lia]).
        apply (IH (S a)) in H; [exact H|lia|lia|]. right. exists a. split; [lia|]. split; [lia|]. split; [lia|].
        intros k Hk. destruct (Nat.eq_dec k a) as [->|N]; [rewrite Ta; split; auto; lia|]. rewrite I by lia. lia.
    + rewrite andb_false_r in H. cbn [andb] in H. apply (IH (S a)) in H; [exact H|lia|lia|].
      destruct I as [[-> [-> I]]|[i2 [B1 [B2 [-> I]]]]]; [left; split; [reflexivity|]; split; [reflexivity|]|right; exists i2; split; [lia|]; split; [lia|]; split; [reflexivity|]].
      * intros k Hk. destruct (Nat.eq_dec k a) as [->|N]; [exact Ta|apply I; lia].
      * intros k Hk. destruct (Nat.eq_dec k a) as [->|N]; [rewrite Ta; split; [discriminate|lia]|apply I; lia].
Qed.
Lemma scan_ok : forall c i1 i2, (forall k, 1 <= k < NL -> (tst c k = true <-> i1 <= k <= i2)) -> 1 <= i1 <= i2 -> i2 < NL ->
  scan_cov c (seq 1 (NL - 1)) NL 0 = Some (i1, S i2 - i1).
Proof.
  intros c i1 i2 H H1 H2.
  assert (G : forall n a lm num, 1 <= a -> a + n <= NL -> St c a lm num -> exists r, scan_cov c (seq a n) lm num = Some r).
  { induction n as [|n IH]; intros a lm num Ha Hn I; cbn [seq scan_cov]; [eauto|].
    destruct (tst c a) eqn:Ta; cbn [andb negb].
    - destruct I as [[-> [-> I]]|[j2 [B1 [B2 [-> I]]]]].
      + change (0 <? 0) with false. cbn [andb]. apply IH; [lia|lia|]. right. destruct (Nat.ltb_spec a NL); [|lia]. exists a. split; [lia|]. split; [lia|]. split; [lia|].
        intros k Hk. destruct (Nat.eq_dec k a) as [->|N]; [rewrite Ta; split; auto; lia|]. rewrite I by lia. split; [discriminate|lia].
      + assert (j2 = a - 1). { assert (i1 <= lm) by (apply H; [lia|apply I; lia]). assert (Q : a <= i2) by (apply H; [lia|exact Ta]).
          destruct (Nat.eq_dec j2 (a - 1)) as [E|N]; [exact E|]. assert (tst c (S j2) = true) by (apply H; lia). apply I in H3; lia. }
        destruct (Nat.ltb_spec 0 (S j2 - lm)); [|lia]. cbn [andb]. assert (Tp : tst c (a - 1) = true) by (apply I; lia). rewrite Tp. cbn [negb].
        destruct (Nat.ltb_spec a lm); [lia|]. apply IH; [lia|lia|]. right. exists a. split; [lia|]. split; [lia|]. split; [lia|].
        intros k Hk. destruct (Nat.eq_dec k a) as [->|N]; [rewrite Ta; split; auto; lia|]. rewrite I by lia. lia.
    - rewrite andb_false_r. cbn [andb]. apply IH; [lia|lia|]. 
      destruct I as [[-> [-> I]]|[j2 [B1 [B2 [-> I]]]]]; [left; split; [reflexivity|]; split; [reflexivity|]|right; exists j2; split; [lia|]; split; [lia|]; split; [reflexivity|]].
      + intros k Hk. destruct (Nat.eq_dec k a) as [->|N]; [exact Ta|apply I; lia].
      + intros k Hk. destruct (Nat.eq_dec k a) as [->|N]; [rewrite Ta; split; [discriminate|lia]|apply I; lia]. }
  destruct (G (NL - 1) 1 NL 0) as [[lm num] E]; [lia|lia|left; repeat split; intros; lia|].
  rewrite E. apply scan_step in E; [|lia|lia|left; repeat split; intros; lia].
  destruct E as [[-> [-> I]]|[j2 [B1 [B2 [-> I]]]]].
  - exfalso. assert (tst c i1 = true) by (apply H; lia). rewrite I in H0 by lia. discriminate.
  - assert (i1 <= lm) by (apply H; [lia|apply I; lia]). assert (lm <= i1) by (apply I; [lia|apply H; lia]).
    assert (j2 <= i2) by (apply H; [lia|apply I; lia]). assert (i2 <= j2) by (apply I; [lia|apply H; lia]). f_equal. f_equal; lia.
Qed.
Lemma outside_spec : forall c x y lm, outside_ok A ns t P c x y lm = true <->
  forall i j, i < NL - 1 -> j < TL -> lk i j = true -> ~ (TL - x - 1 <= j <= y) ->
    tst c (i + 1) = false /\ (e_mono P = true -> (i + 1 < lm -> j <= y) /\ (lm <= i + 1 -> TL - x - 1 <= j)).
Proof.
  intros c x y lm. unfold outside_ok, sourcePosInCell. rewrite forallb_forall. split; intros H.
  - intros i j Hi Hj L Out. specialize (H j ltac:(apply in_seq; lia)). apply orb_true_iff in H. destruct H as [H|H].
    + apply andb_true_iff in H. destruct H as [H1 H2]. apply Nat.leb_le in H1. apply Nat.leb_le in H2. lia.
    + rewrite forallb_forall in H. specialize (H i ltac:(apply in_seq; lia)). rewrite L in H. cbn [negb orb] in H. apply andb_true_iff in H. destruct H as [H1 H2].
      apply negb_true_iff in H1. split; [exact H1|]. intros M. rewrite M in H2. cbn [negb orb] in H2.
      destruct (Nat.ltb_spec (i + 1) lm); apply negb_true_iff, Nat.ltb_ge in H2; lia.
  - intros j Hj. apply in_seq in Hj. apply orb_true_iff. destruct (Nat.leb_spec j y) as [U1|U1]; cbn [andb]; [destruct (Nat.leb_spec (TL - x - 1) j) as [U2|U2]; [left; reflexivity|]|]; right; apply forallb_forall;
      intros i Hi; apply in_seq in Hi; destruct (lk i j) eqn:L; cbn [negb orb]; try reflexivity; destruct (H i j) as [V1 V2]; try lia; try exact L; rewrite V1; cbn [negb andb];
      destruct (e_mono P); cbn [negb orb]; try reflexivity; destruct (V2 eq_refl) as [G1 G2]; destruct (Nat.ltb_spec (i + 1) lm); apply negb_true_iff, Nat.ltb_ge; lia.
Qed.
(** the table satisfies its equation *)
Definition limit (x y : nat) : bool := (if e_spur P then lenInCell t x y else lenNonSpur A t x y) <=? e_max P.
Definition eqn (T : table) (x y : nat) : list ca :=
  if limit x y then (if x =? TL - y - 1 then ext_cell A ns t P x y else inner_cell A ns t P T x y) else [].
Definition inr_cell (x y : nat) : Prop := y < TL /\ TL - y - 1 <= x < TL.
Definition earlier (x' y' x y : nat) : Prop := y' < y \/ (y' = y /\ x' < x).
Lemma fold_ext_in : forall (X Y : Type) (f g : X -> Y -> X) l s, (forall s y, In y l -> f s y = g s y) -> fold_left f l s = fold_left g l s.
Proof. intros X Y f g l; induction l as [|y l IH]; intros s H; [reflexivity|]. cbn. rewrite H by (left; reflexivity). apply IH. intros; apply H; right; auto. Qed.
Lemma inner_ext : forall T T' x y, inr_cell x y -> (forall x' y', inr_cell x' y' -> earlier x' y' x y -> T x' y' = T' x' y') ->
  inner_cell A ns t P T x y = inner_cell A ns t P T' x y.
Proof.
  intros T T' x y [Hy Hx] H. unfold inner_cell. apply fold_ext_in. intros s z Hz. apply in_seq in Hz.
  rewrite (H x z), (H (TL - 2 - z) y); [reflexivity| | | |]; unfold inr_cell, earlier; lia.
Qed.
Lemma eqn_ext : forall T T' x y, inr_cell x y -> (forall x' y', inr_cell x' y' -> earlier x' y' x y -> T x' y' = T' x' y') -> eqn T x y = eqn T' x y.
Proof. intros T T' x y Hr H. unfold eqn. destruct (limit x y); [|reflexivity]. destruct (x =? TL - y - 1); [reflexivity|]. apply inner_ext; assumption. Qed.
Definition Done (x y : nat) (T : table) : Prop :=
  (forall x' y', inr_cell x' y' -> earlier x' y' x y -> T x' y' = eqn T x' y') /\ (forall x' y', ~ (inr_cell x' y' /\ earlier x' y' x y) -> T x' y' = []).
Lemma fill_cell_done : forall x y T, inr_cell x y -> Done x y T -> Done (S x) y (fill_cell A ns t P y T x).
Proof.
  intros x y T Hr [D1 D2].
  assert (V : forall x' y', fill_cell A ns t P y T x x' y' = if (x' =? x) && (y' =? y) then eqn T x y else T x' y').
  { intros x' y'. unfold fill_cell. fold (limit x y). unfold eqn. destruct (limit x y) eqn:L; [reflexivity|].
    destruct ((x' =? x) && (y' =? y)) eqn:Q; [|reflexivity]. apply andb_true_iff in Q. destruct Q as [Q1 Q2]. apply Nat.eqb_eq in Q1, Q2. subst. apply D2. intros [_ E]. unfold earlier in E. lia. }
  split.
  - intros x' y' Hr' E. rewrite V. rewrite (eqn_ext _ T x' y' Hr').
    + destruct ((x' =? x) && (y' =? y)) eqn:Q.
      * apply andb_true_iff in Q. destruct Q as [Q1 Q2]. apply Nat.eqb_eq in Q1, Q2. subst. reflexivity.
      * apply D1; [exact Hr'|]. apply andb_false_iff in Q. unfold earlier in *. destruct Q as [Q|Q]; apply Nat.eqb_neq in Q; lia.
    + intros x2 y2 Hr2 E2. rewrite V. destruct ((x2 =? x) && (y2 =? y)) eqn:Q; [|reflexivity]. apply andb_true_iff in Q. destruct Q as [Q1 Q2]. apply Nat.eqb_eq in Q1, Q2. subst.
      unfold earlier in *. lia.
  - intros x' y' N. rewrite V. destruct ((x' =? x) && (y' =? y)) eqn:Q.
    + apply andb_true_iff in Q. destruct Q as [Q1 Q2]. apply Nat.eqb_eq in Q1, Q2. subst. exfalso. apply N. split; [exact Hr|]. unfold earlier. lia.
    + apply D2. intros [N1 N2]. apply N. split; [exact N1|]. unfold earlier in *. lia.
Qed.
Lemma done_next : forall y T, Done TL y T -> Done (TL - S y - 1) (S y) T.
Proof.
  intros y T [D1 D2]. assert (E : forall x' y', inr_cell x' y' -> (earlier x' y' TL y <-> earlier x' y' (TL - S y - 1) (S y))) by (unfold inr_cell, earlier; intros; lia).
  split.
  - intros x' y' Hr H. apply D1; [exact Hr|]. apply E; assumption.
  - intros x' y' N. apply D2. intros [N1 N2]. apply N. split; [exact N1|]. apply E; assumption.
Qed.
Lemma fill_row_done : forall y T, y < TL -> Done (TL - y - 1) y T -> Done (TL - S y - 1) (S y) (fill_row A ns t P T y).
Proof.
  intros y T Hy D. apply done_next. unfold fill_row.
  replace TL with ((TL - y - 1) + (TL - (TL - y - 1))) at 1 by lia.
  apply (fold_seq_inv _ (fill_cell A ns t P y) (fun k T => Done k y T)); [|exact D].
  intros k s Hk. apply fill_cell_done. unfold inr_cell. lia.
Qed.
Lemma table_eqn : (forall x y, inr_cell x y -> fill_table A ns t P x y = eqn (fill_table A ns t P) x y) /\
  (forall x y, ~ inr_cell x y -> fill_table A ns t P x y = []).
Proof.
  assert (D : Done (TL - (0 + TL) - 1) (0 + TL) (fill_table A ns t P)).
  { unfold fill_table. apply (fold_seq_inv _ (fill_row A ns t P) (fun y T => Done (TL - y - 1) y T)).
    - intros k s Hk. apply fill_row_done. lia.
    - split; intros x y; [intros Hr E; unfold inr_cell, earlier in *; lia|reflexivity]. }
  destruct D as [D1 D2]. split.
  - intros x y Hr. apply D1; [exact Hr|]. unfold inr_cell, earlier in *. lia.
  - intros x y N. apply D2. tauto.
Qed.
End Base.
