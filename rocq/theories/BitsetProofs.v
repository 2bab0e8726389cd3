From Coq Require Import Arith NArith List Bool Lia.
From Verif Require Import BitsetModel BitsetSpec.
Import ListNotations.
Open Scope N_scope.

Lemma widx_eq : forall n, widx n = n / 32.
Proof.
  intro n. unfold widx, NUM_WORDS. replace (n + 1 <? 1) with false by (symmetry; apply N.ltb_ge; lia).
  replace (n + 1 - 1 + W) with (n + 1 * W) by (unfold W; lia). rewrite N.div_add by discriminate. apply N.add_sub.
Qed.
Lemma woff_eq : forall n, woff n = n mod 32.
Proof. intro n. unfold woff. rewrite widx_eq. unfold W. rewrite N.mul_comm. symmetry. apply N.mod_eq. discriminate. Qed.

Lemma testbit_high : forall w n, w < 2 ^ 32 -> 32 <= n -> N.testbit w n = false.
Proof.
  intros w n H Hn. destruct (N.eq_dec w 0) as [->|NZ]; [apply N.bits_0|].
  apply N.bits_above_log2. apply N.log2_lt_pow2 in H; lia.
Qed.

Lemma value_cons_bits : forall w r n, w < 2 ^ 32 ->
  N.testbit (w + 2 ^ 32 * r) n = if n <? 32 then N.testbit w n else N.testbit r (n - 32).
Proof.
  intros w r n H.
  replace (w + 2 ^ 32 * r) with (N.lor w (N.shiftl r 32)).
  - rewrite N.lor_spec. destruct (n <? 32) eqn:E.
    + apply N.ltb_lt in E. rewrite N.shiftl_spec_low by auto. apply orb_false_r.
    + apply N.ltb_ge in E. rewrite N.shiftl_spec_high' by auto. now rewrite testbit_high.
  - rewrite N.shiftl_mul_pow2. rewrite (N.mul_comm r). symmetry.
    rewrite <- N.lxor_lor.
    + apply N.add_nocarry_lxor. apply N.bits_inj. intro k. rewrite N.land_spec, N.bits_0, N.mul_comm, <- N.shiftl_mul_pow2.
      destruct (N.lt_ge_cases k 32); [rewrite N.shiftl_spec_low by auto; apply andb_false_r|rewrite testbit_high; auto].
    + apply N.bits_inj. intro k. rewrite N.land_spec, N.bits_0, N.mul_comm, <- N.shiftl_mul_pow2.
      destruct (N.lt_ge_cases k 32); [rewrite N.shiftl_spec_low by auto; apply andb_false_r|rewrite testbit_high; auto].
Qed.

Lemma value_bits : forall ws n, Forall (fun w => w < 2 ^ 32) ws ->
  N.testbit (bs_value ws) n = N.testbit (nth (N.to_nat (n / 32)) ws 0) (n mod 32).
Proof.
  induction ws as [|w r IH]; intros n H.
  - cbn [bs_value]. destruct (N.to_nat (n/32)); simpl nth; now rewrite !N.bits_0.
  - cbn [bs_value]. inversion H; subst. rewrite value_cons_bits by auto. destruct (n <? 32) eqn:E.
    + apply N.ltb_lt in E. rewrite N.div_small, N.mod_small by auto. reflexivity.
    + apply N.ltb_ge in E. rewrite IH by auto.
      replace n with (n - 32 + 1 * 32) at 3 4 by lia. rewrite N.div_add, N.mod_add by discriminate.
      rewrite N2Nat.inj_add. replace (N.to_nat (((n - 32) / 32)) + N.to_nat 1)%nat with (S (N.to_nat ((n - 32) / 32))) by (simpl; lia).
      reflexivity.
Qed.

Lemma upd_length : forall A i (x : A) l, length (upd i x l) = length l.
Proof. intros A i x l; revert i; induction l; destruct i; simpl; auto. Qed.
Lemma upd_nth : forall A i j (x d : A) l, nth j (upd i x l) d = if (i =? j)%nat then (if (i <? length l)%nat then x else d) else nth j l d.
Proof.
  intros A i j x d l; revert i j; induction l as [|a l IH]; intros i j.
  - simpl. destruct i; destruct j; simpl; auto; try (destruct (i =? j)%nat; auto).
  - destruct i; destruct j; simpl; auto. rewrite IH. reflexivity.
Qed.
Lemma upd_Forall : forall A (P : A -> Prop) i x l, P x -> Forall P l -> Forall P (upd i x l).
Proof. intros A P i x l Hx H; revert i; induction H; destruct i; simpl; auto. Qed.

Lemma idx_lt : forall nw n, n < 32 * N.of_nat nw -> (N.to_nat (n / 32) < nw)%nat.
Proof. intros nw n H. assert (n / 32 < N.of_nat nw) by (apply N.div_lt_upper_bound; lia). lia. Qed.

Lemma nth_error_nth_N : forall (l : list N) i, (i < length l)%nat -> nth_error l i = Some (nth i l 0).
Proof. intros. apply nth_error_nth'. auto. Qed.

Lemma pow_off_lt : forall n, 2 ^ (n mod 32) < 2 ^ 32.
Proof. intro. apply N.pow_lt_mono_r; [lia|]. apply N.mod_lt; discriminate. Qed.

Lemma off_inj : forall n m, N.to_nat (n / 32) = N.to_nat (m / 32) -> n mod 32 = m mod 32 -> n = m.
Proof. intros n m H H'. apply N2Nat.inj in H. rewrite (N.div_mod n 32), (N.div_mod m 32) by discriminate. congruence. Qed.

Lemma wf_nth : forall nw b i, bs_wf nw b -> nth i b 0 < 2 ^ 32.
Proof.
  intros nw b i [_ H]. destruct (Nat.lt_ge_cases i (length b)).
  - rewrite Forall_forall in H. apply H. now apply nth_In.
  - rewrite nth_overflow by auto. reflexivity.
Qed.

Lemma lt_bits32 : forall x, (forall k, 32 <= k -> N.testbit x k = false) -> x < 2 ^ 32.
Proof.
  intros x H. destruct (N.eq_dec x 0) as [->|NZ]; [reflexivity|].
  apply N.log2_lt_pow2; [lia|]. destruct (N.lt_ge_cases (N.log2 x) 32); auto.
  specialize (H _ H0). rewrite N.bit_log2 in H; [discriminate|auto].
Qed.

Lemma set_ok : forall nw b n, bs_wf nw b -> n < 32 * N.of_nat nw ->
  exists b', bs_set n true b = Some b' /\ bs_wf nw b' /\ bs_value b' = N.setbit (bs_value b) n.
Proof.
  intros nw b n [HL HF] Hn. unfold bs_set. rewrite widx_eq, woff_eq. pose proof (idx_lt nw n Hn) as Hi.
  rewrite nth_error_nth_N by lia. eexists; split; [reflexivity|].
  rewrite N.shiftl_1_l, N.mod_small by apply pow_off_lt.
  set (w := nth (N.to_nat (n/32)) b 0). assert (Hw : w < 2^32) by (apply (wf_nth nw); split; auto).
  assert (Hx : N.lor w (2 ^ (n mod 32)) < 2 ^ 32).
  { apply lt_bits32. intros k Hk. rewrite N.lor_spec, testbit_high by auto.
    rewrite N.pow2_bits_false; auto. pose proof (N.mod_lt n 32). lia. }
  split; [split; [now rewrite upd_length|now apply upd_Forall]|].
  apply N.bits_inj. intro m. rewrite value_bits by (apply upd_Forall; auto). rewrite upd_nth, N.setbit_eqb, value_bits by auto.
  replace (N.to_nat (n/32) <? length b)%nat with true by (symmetry; apply Nat.ltb_lt; lia).
  destruct (N.to_nat (n/32) =? N.to_nat (m/32))%nat eqn:E.
  - apply Nat.eqb_eq in E. rewrite N.lor_spec, N.pow2_bits_eqb. unfold w. rewrite E.
    destruct (n =? m) eqn:E2.
    + apply N.eqb_eq in E2; subst. rewrite N.eqb_refl. now rewrite orb_true_r.
    + destruct (n mod 32 =? m mod 32) eqn:E3; [|now rewrite orb_false_r].
      apply N.eqb_eq in E3. apply N.eqb_neq in E2. exfalso. apply E2. now apply off_inj.
  - destruct (n =? m) eqn:E2; [|reflexivity]. apply N.eqb_eq in E2; subst. now rewrite Nat.eqb_refl in E.
Qed.

Lemma reset_ok : forall nw b n, bs_wf nw b -> n < 32 * N.of_nat nw ->
  exists b', bs_reset n b = Some b' /\ bs_wf nw b' /\ bs_value b' = N.clearbit (bs_value b) n.
Proof.
  intros nw b n [HL HF] Hn. unfold bs_reset. rewrite widx_eq, woff_eq. pose proof (idx_lt nw n Hn) as Hi.
  rewrite nth_error_nth_N by lia. eexists; split; [reflexivity|].
  rewrite N.shiftl_1_l, N.mod_small by apply pow_off_lt.
  set (w := nth (N.to_nat (n/32)) b 0). assert (Hw : w < 2^32) by (apply (wf_nth nw); split; auto).
  assert (Hmask : forall k, k < 32 -> N.testbit (UINT_MOD - 1 - 2 ^ (n mod 32)) k = negb (n mod 32 =? k)).
  { intros k Hk. unfold UINT_MOD. replace (2 ^ 32 - 1) with (N.ones 32) by reflexivity.
    rewrite N.sub_nocarry_ldiff.
    - rewrite N.ldiff_spec, N.ones_spec_low, N.pow2_bits_eqb by auto. reflexivity.
    - apply N.bits_inj. intro m. rewrite N.ldiff_spec, N.pow2_bits_eqb, N.bits_0. destruct (N.eqb_spec (n mod 32) m); auto.
      rewrite N.ones_spec_low; auto. subst. apply N.mod_lt; discriminate. }
  assert (Hx : N.land w (UINT_MOD - 1 - 2 ^ (n mod 32)) < 2 ^ 32).
  { apply lt_bits32. intros k Hk. now rewrite N.land_spec, testbit_high by auto. }
  split; [split; [now rewrite upd_length|now apply upd_Forall]|].
  apply N.bits_inj. intro m. rewrite value_bits by (apply upd_Forall; auto). rewrite upd_nth, N.clearbit_eqb, value_bits by auto.
  replace (N.to_nat (n/32) <? length b)%nat with true by (symmetry; apply Nat.ltb_lt; lia).
  destruct (N.to_nat (n/32) =? N.to_nat (m/32))%nat eqn:E.
  - apply Nat.eqb_eq in E. rewrite N.land_spec, Hmask by (apply N.mod_lt; discriminate). unfold w. rewrite E. f_equal.
    destruct (N.eqb_spec n m) as [->|NE]; [now rewrite N.eqb_refl|].
    destruct (N.eqb_spec (n mod 32) (m mod 32)); auto. exfalso. apply NE. now apply off_inj.
  - destruct (N.eqb_spec n m) as [->|NE]; [now rewrite Nat.eqb_refl in E|]. now rewrite andb_true_r.
Qed.

Lemma test_ok : forall nw b n, bs_wf nw b -> n < 32 * N.of_nat nw -> bs_test n b = Some (N.testbit (bs_value b) n).
Proof.
  intros nw b n [HL HF] Hn. unfold bs_test. rewrite widx_eq, woff_eq. pose proof (idx_lt nw n Hn).
  rewrite nth_error_nth_N by lia. rewrite N.shiftr_spec' , N.add_0_l. now rewrite value_bits.
Qed.

Lemma wordwise_ok : forall f fb, (forall x y n, N.testbit (f x y) n = fb (N.testbit x n) (N.testbit y n)) -> fb false false = false ->
  forall nw a b, bs_wf nw a -> bs_wf nw b -> bs_wf nw (wordwise f a b) /\ bs_value (wordwise f a b) = f (bs_value a) (bs_value b).
Proof.
  intros f fb Hf H0 nw a b [La Fa] [Lb Fb].
  revert nw b La Lb Fb; induction a as [|x a IH]; intros nw b La Lb Fb; destruct b as [|y b]; cbn [length wordwise bs_value] in *; subst; try discriminate.
  - split; [split; auto|]. apply N.bits_inj. intro. now rewrite Hf, !N.bits_0.
  - apply Forall_cons_iff in Fa. apply Forall_cons_iff in Fb. destruct Fa as [Hx Fa], Fb as [Hy Fb].
    injection Lb as Lb'. destruct (IH Fa (length a) b eq_refl Lb' Fb) as [[L F] V].
    assert (Hxy : f x y < 2^32). { apply lt_bits32. intros. rewrite Hf, !testbit_high; auto. }
    split; [split; cbn [length]; auto|].
    rewrite V. apply N.bits_inj. intro n. rewrite Hf, !value_cons_bits by auto. rewrite !Hf. destruct (n <? 32); reflexivity.
Qed.

Lemma and_ok : forall nw a b, bs_wf nw a -> bs_wf nw b -> bs_wf nw (bs_and a b) /\ bs_value (bs_and a b) = N.land (bs_value a) (bs_value b).
Proof. apply (wordwise_ok N.land andb); auto. intros; apply N.land_spec. Qed.
Lemma or_ok : forall nw a b, bs_wf nw a -> bs_wf nw b -> bs_wf nw (bs_or a b) /\ bs_value (bs_or a b) = N.lor (bs_value a) (bs_value b).
Proof. apply (wordwise_ok N.lor orb); auto. intros; apply N.lor_spec. Qed.
Lemma xor_ok : forall nw a b, bs_wf nw a -> bs_wf nw b -> bs_wf nw (bs_xor a b) /\ bs_value (bs_xor a b) = N.lxor (bs_value a) (bs_value b).
Proof. apply (wordwise_ok N.lxor xorb); auto. intros; apply N.lxor_spec. Qed.

Lemma value_inj : forall nw a b, bs_wf nw a -> bs_wf nw b -> bs_value a = bs_value b -> a = b.
Proof.
  intros nw a b [La Fa] [Lb Fb]. subst nw. revert b Lb Fb; induction a as [|x a IH]; destruct b as [|y b]; cbn [length bs_value]; intros Lb Fb E; auto; try discriminate.
  inversion Fa; inversion Fb; subst.
  assert (x = y).
  { apply (f_equal (fun z => z mod 2 ^ 32)) in E. rewrite (N.mul_comm _ (bs_value a)), (N.mul_comm _ (bs_value b)) in E. rewrite !N.mod_add in E by discriminate.
    now rewrite !N.mod_small in E. }
  subst y. f_equal. apply IH; auto.
  assert (2 ^ 32 * bs_value a = 2 ^ 32 * bs_value b) by lia. apply N.mul_cancel_l in H; auto. discriminate.
Qed.

Lemma eq_ok : forall nw a b, bs_wf nw a -> bs_wf nw b -> (bs_eq a b = true <-> bs_value a = bs_value b).
Proof.
  intros nw a b Ha Hb. split; intro H.
  - destruct Ha as [La _], Hb as [Lb _]. subst nw. revert b Lb H; induction a; destruct b; simpl; intros; auto; try discriminate.
    destruct (a =? n) eqn:E; simpl in H; [|discriminate]. apply N.eqb_eq in E. subst. now rewrite (IHa b) by auto.
  - apply (value_inj nw) in H; auto. subst. clear. induction b; simpl; auto. now rewrite N.eqb_refl.
Qed.

Lemma value_lt : forall ws, Forall (fun w => w < 2^32) ws -> bs_value ws < 2 ^ (32 * N.of_nat (length ws)).
Proof.
  induction ws; intro H; [reflexivity|]. inversion H; subst. cbn [bs_value length].
  rewrite Nat2N.inj_succ. replace (32 * N.succ (N.of_nat (length ws))) with (32 + 32 * N.of_nat (length ws)) by lia.
  rewrite N.pow_add_r. specialize (IHws H3).
  assert (bs_value ws + 1 <= 2 ^ (32 * N.of_nat (length ws))) by lia.
  apply (N.mul_le_mono_l _ _ (2^32)) in H0. lia.
Qed.

Lemma value_app : forall a b, bs_value (a ++ b) = bs_value a + 2 ^ (32 * N.of_nat (length a)) * bs_value b.
Proof.
  induction a; intro b; cbn [app bs_value length]; [change (2 ^ (32 * N.of_nat 0)) with 1; lia|].
  rewrite IHa, Nat2N.inj_succ. replace (32 * N.succ (N.of_nat (length a0))) with (32 + 32 * N.of_nat (length a0)) by lia.
  rewrite N.pow_add_r. lia.
Qed.

Lemma firstn_S_nth : forall i (l : list N), (i < length l)%nat -> firstn (S i) l = firstn i l ++ [nth i l 0].
Proof. induction i; destruct l; simpl; intros; try lia; auto. f_equal. apply IHi. lia. Qed.

Lemma Forall_firstn' : forall A (P : A -> Prop) n l, Forall P l -> Forall P (firstn n l).
Proof. intros A P n l H; revert n; induction H; destruct n; simpl; auto. Qed.

Lemma lt_loop_ok : forall i a b, (i <= length a)%nat -> (i <= length b)%nat -> Forall (fun w => w < 2^32) a -> Forall (fun w => w < 2^32) b ->
  bs_lt_loop i a b = (bs_value (firstn i a) <? bs_value (firstn i b)) /\ bs_gt_loop i a b = (bs_value (firstn i b) <? bs_value (firstn i a)).
Proof.
  induction i; intros a b La Lb Fa Fb; [split; reflexivity|].
  cbn [bs_lt_loop bs_gt_loop]. rewrite !firstn_S_nth by lia. rewrite !value_app. rewrite !firstn_length_le by lia.
  destruct (IHi a b) as [I1 I2]; try lia; auto.
  assert (Ba : bs_value (firstn i a) < 2 ^ (32 * N.of_nat i)).
  { rewrite <- (firstn_length_le a (n:=i)) at 2 by lia. apply value_lt. now apply Forall_firstn'. }
  assert (Bb : bs_value (firstn i b) < 2 ^ (32 * N.of_nat i)).
  { rewrite <- (firstn_length_le b (n:=i)) at 2 by lia. apply value_lt. now apply Forall_firstn'. }
  cbn [bs_value]. rewrite !N.mul_0_r, !N.add_0_r.
  set (p := 2 ^ (32 * N.of_nat i)) in *. clearbody p.
  revert I1 I2 Ba Bb. generalize (bs_value (firstn i a)) as u, (bs_value (firstn i b)) as v, (nth i a 0) as x, (nth i b 0) as y.
  intros u v x y I1 I2 Ba Bb.
  destruct (N.ltb_spec x y) as [L|G]; [|destruct (N.ltb_spec y x) as [L|G']].
  - assert (p * (x + 1) <= p * y) by (apply N.mul_le_mono_l; lia). rewrite N.mul_add_distr_l in H.
    split; symmetry; [apply N.ltb_lt|apply N.ltb_ge]; lia.
  - assert (p * (y + 1) <= p * x) by (apply N.mul_le_mono_l; lia). rewrite N.mul_add_distr_l in H.
    split; symmetry; [apply N.ltb_ge|apply N.ltb_lt]; lia.
  - assert (x = y) by lia. subst y. rewrite I1, I2.
    split; [destruct (N.ltb_spec u v)|destruct (N.ltb_spec v u)]; symmetry; try apply N.ltb_lt; try apply N.ltb_ge; lia.
Qed.

Lemma lt_ok : forall nw a b, bs_wf nw a -> bs_wf nw b -> bs_lt nw a b = (bs_value a <? bs_value b) /\ bs_gt nw a b = (bs_value b <? bs_value a).
Proof.
  intros nw a b [La Fa] [Lb Fb]. unfold bs_lt, bs_gt.
  pose proof (lt_loop_ok nw a b). rewrite !firstn_all2 in H by lia. apply H; auto; lia.
Qed.

Lemma msb_test : forall w, w < 2 ^ 32 -> (N.land w MSB =? MSB) = (2 ^ 31 <=? w) /\ (N.land w MSB =? 0) = (w <? 2 ^ 31).
Proof.
  intros w H. assert (E : N.land w MSB = if N.testbit w 31 then MSB else 0).
  { apply N.bits_inj. intro k. unfold MSB. rewrite N.land_spec, N.pow2_bits_eqb. destruct (N.eqb_spec 31 k) as [<-|NE].
    - destruct (N.testbit w 31); [now rewrite N.pow2_bits_true|now rewrite N.bits_0].
    - rewrite andb_false_r. destruct (N.testbit w 31); [now rewrite N.pow2_bits_false|now rewrite N.bits_0]. }
  rewrite E. assert (T : N.testbit w 31 = (2 ^ 31 <=? w)).
  { destruct (N.leb_spec (2^31) w).
    - rewrite N.testbit_true. rewrite <- (N.div_unique w (2^31) 1 (w - 2^31)); [reflexivity| |]; change (2^32) with (2*2^31) in H; lia.
    - rewrite N.testbit_false. now rewrite N.div_small. }
  rewrite T. destruct (N.leb_spec (2^31) w); split; simpl; try reflexivity; symmetry; [apply N.ltb_ge|apply N.ltb_lt]; auto.
Qed.

Lemma incr_ok : forall nw b, bs_wf nw b -> bs_wf nw (bs_incr b) /\ bs_value (bs_incr b) = (bs_value b + 1) mod 2 ^ (32 * N.of_nat nw).
Proof.
  intros nw b [HL HF]. subst nw. induction b as [|w b IH].
  - split; [split; auto|]. cbn. reflexivity.
  - inversion HF; subst. specialize (IH H2). destruct IH as [[L F] V]. cbn [bs_incr].
    assert (Hw' : (w + 1) mod UINT_MOD < 2^32) by (apply N.mod_lt; discriminate).
    assert (BL : bs_value (w :: b) < 2 ^ (32 * N.of_nat (length (w :: b)))) by (apply value_lt; auto).
    assert (Pow : 2 ^ (32 * N.of_nat (length (w :: b))) = 2 ^ 32 * 2 ^ (32 * N.of_nat (length b))).
    { cbn [length]. rewrite Nat2N.inj_succ. replace (32 * N.succ (N.of_nat (length b))) with (32 + 32 * N.of_nat (length b)) by lia. apply N.pow_add_r. }
    rewrite Pow in *. set (P := 2 ^ (32 * N.of_nat (length b))) in *.
    assert (P0 : P <> 0) by (apply N.pow_nonzero; discriminate).
    destruct (msb_test w H1) as [M1 _]. destruct (msb_test _ Hw') as [_ M2]. rewrite M1, M2.
    destruct (N.eq_dec w (2^32 - 1)) as [E|NE].
    + subst w. change ((2 ^ 32 - 1 + 1) mod UINT_MOD) with 0 in *. replace ((2 ^ 31 <=? 2 ^ 32 - 1) && (0 <? 2 ^ 31)) with true by reflexivity.  cbn [bs_value].
      split.
      * split; [cbn [length]; now rewrite L|constructor; auto; reflexivity].
      * rewrite V. rewrite N.add_0_l. replace (2 ^ 32 - 1 + 2 ^ 32 * bs_value b + 1) with (2 ^ 32 * (bs_value b + 1)) by (change (2^32) with 4294967296; lia).
        rewrite N.mul_mod_distr_l; auto. discriminate.
    + assert (Lt : w + 1 < 2 ^ 32) by (change (2^32) with 4294967296 in *; lia).
      rewrite (N.mod_small (w+1) UINT_MOD) by exact Lt.
      replace ((2 ^ 31 <=? w) && (w + 1 <? 2 ^ 31)) with false
        by (destruct (N.leb_spec (2^31) w); simpl; auto; symmetry; apply N.ltb_ge; lia).
      split.
      * split; auto. 
      * cbn [bs_value] in *. rewrite N.mod_small; [lia|].
        pose proof (value_lt b H2) as B2. fold P in B2.
        assert (2 ^ 32 * (bs_value b + 1) <= 2 ^ 32 * P) by (apply N.mul_le_mono_l; lia). lia.
Qed.

(** ** operator+ *)
Lemma plus_ok : forall a b, length a = length b -> Forall (fun w => w < 2 ^ 31) b ->
  match a with [] => True | x :: r => x < 2 ^ 32 /\ Forall (fun w => w < 2 ^ 32 - 1) r end ->
  bs_value (bs_plus a b) = (bs_value a + bs_value b) mod 2 ^ (32 * N.of_nat (length a)) /\
  Forall (fun w => w < 2 ^ 32) (bs_plus a b) /\ length (bs_plus a b) = length a.
Proof.
  intros a b; revert a; induction b as [|y b IH]; intros a L Hb Ha; destruct a as [|x a]; try discriminate.
  - split; [reflexivity|split; [constructor|reflexivity]].
  - cbn [length] in L. injection L as L. apply Forall_cons_iff in Hb. destruct Hb as [Hy Hb]. destruct Ha as [Hx Ha].
    cbn [bs_plus].
    assert (Hs : (x + y) mod UINT_MOD < 2 ^ 32) by (apply N.mod_lt; discriminate).
    assert (Pow : 2 ^ (32 * N.of_nat (length (x :: a))) = 2 ^ 32 * 2 ^ (32 * N.of_nat (length a))).
    { cbn [length]. rewrite Nat2N.inj_succ. replace (32 * N.succ (N.of_nat (length a))) with (32 + 32 * N.of_nat (length a)) by lia. apply N.pow_add_r. }
    rewrite Pow.
    destruct (msb_test x Hx) as [M1 _]. destruct (msb_test _ Hs) as [_ M2]. rewrite M1, M2.
    match goal with |- context [bs_plus ?z b] => set (a'' := z) end.
    assert (Ca : exists c, (x + y) = (x + y) mod UINT_MOD + 2 ^ 32 * c /\ length a'' = length a /\
       bs_value a'' mod 2 ^ (32 * N.of_nat (length a)) = (bs_value a + c) mod 2 ^ (32 * N.of_nat (length a)) /\
       match a'' with [] => True | x :: r => x < 2 ^ 32 /\ Forall (fun w => w < 2 ^ 32 - 1) r end).
    { destruct (N.lt_ge_cases (x + y) (2 ^ 32)) as [Lt|Ge].
      - exists 0. split; [rewrite (N.mod_small (x + y)) by exact Lt; lia|].
        assert (E : (2 ^ 31 <=? x) && (x + y <? 2 ^ 31) = false).
        { destruct (N.leb_spec (2^31) x); simpl; auto. apply N.ltb_ge. lia. }
        unfold a''. rewrite (N.mod_small (x + y)) by exact Lt. rewrite E, N.add_0_r. split; auto. split; auto.
        destruct a; auto. apply Forall_cons_iff in Ha. destruct Ha. split; auto. change (2^32) with 4294967296 in *. lia.
      - exists 1.
        assert (Em : (x + y) mod UINT_MOD = x + y - 2 ^ 32).
        { symmetry. apply (N.mod_unique _ _ 1); unfold UINT_MOD; change (2^32) with 4294967296 in *; change (2^31) with 2147483648 in *; lia. }
        rewrite Em. split; [change (2^32) with 4294967296 in *; lia|].
        assert (E : (2 ^ 31 <=? x) && (x + y - 2 ^ 32 <? 2 ^ 31) = true).
        { apply andb_true_intro. rewrite N.leb_le, N.ltb_lt. change (2^32) with 4294967296 in *; change (2^31) with 2147483648 in *; lia. }
        unfold a''. rewrite Em, E. destruct a as [|z r].
        + repeat split; auto. 
        + apply Forall_cons_iff in Ha. destruct Ha as [Hz Hr].
          assert (Ez : (z + 1) mod UINT_MOD = z + 1) by (apply N.mod_small; unfold UINT_MOD; change (2^32) with 4294967296 in *; lia).
          rewrite Ez. split; auto. split; [cbn [bs_value]; f_equal; lia|]. split; auto. change (2^32) with 4294967296 in *; lia. }
    destruct Ca as (c & Ec & La & Va & Wa).
    assert (L' : length a'' = length b) by congruence.
    destruct (IH a'' L' Hb Wa) as (V & F & L2). rewrite La in V, L2.
    assert (Vb : bs_value (a) = bs_value a) by auto.
    split; [|split; [constructor; auto|cbn [length]; congruence]].
    cbn [bs_value]. rewrite V.
    set (P := 2 ^ (32 * N.of_nat (length a))) in *. assert (P0 : P <> 0) by (apply N.pow_nonzero; discriminate).
    assert (EV : (bs_value a'' + bs_value b) mod P = (bs_value a + c + bs_value b) mod P).
    { rewrite <- (N.add_mod_idemp_l (bs_value a'')) by auto. rewrite Va. now rewrite N.add_mod_idemp_l by auto. }
    rewrite EV.
    replace (x + 2 ^ 32 * bs_value a + (y + 2 ^ 32 * bs_value b)) with ((x + y) + 2 ^ 32 * (bs_value a + bs_value b)) by lia.
    rewrite Ec at 2. clear - Hs P0.
    revert Hs. generalize ((x + y) mod UINT_MOD) as s. intros s Hs.
    replace (s + 2 ^ 32 * c + 2 ^ 32 * (bs_value a + bs_value b)) with (s + 2 ^ 32 * (bs_value a + c + bs_value b)) by lia.
    generalize (bs_value a + c + bs_value b) as v. intro v.
    rewrite (N.div_mod v P) at 2 by auto.
    replace (s + 2 ^ 32 * (P * (v / P) + v mod P)) with (s + 2 ^ 32 * (v mod P) + (v / P) * (2 ^ 32 * P)) by lia.
    rewrite N.mod_add by (apply N.neq_mul_0; split; [discriminate|auto]).
    symmetry. apply N.mod_small.
    pose proof (N.mod_lt v P P0).
    assert (2 ^ 32 * (v mod P + 1) <= 2 ^ 32 * P) by (apply N.mul_le_mono_l; lia).
    rewrite N.mul_add_distr_l in H0. revert H0 Hs. generalize (2 ^ 32 * (v mod P)), (2 ^ 32 * P), (2^32). intros. lia.
Qed.

(** ** operator>>= *)
Lemma mask_ok : forall p o, N.of_nat (p + o) <= 32 -> bs_mask p (N.ones (N.of_nat o)) = N.ones (N.of_nat (p + o)).
Proof.
  induction p; intros o H; cbn [bs_mask]; [reflexivity|].
  replace (N.lor (N.shiftl (N.ones (N.of_nat o)) 1 mod UINT_MOD) 1) with (N.ones (N.of_nat (S o))).
  - rewrite IHp by lia. f_equal. lia.
  - apply N.bits_inj. intro k. rewrite N.lor_spec. unfold UINT_MOD.
    destruct (N.lt_ge_cases k (N.of_nat (S o))) as [Lt|Ge].
    + rewrite N.ones_spec_low by auto. rewrite N.mod_pow2_bits_low by lia.
      destruct (N.eq_dec k 0) as [->|NZ]; [now rewrite orb_true_r|].
      rewrite N.shiftl_spec_high' by lia. rewrite N.ones_spec_low by lia. reflexivity.
    + rewrite N.ones_spec_high by auto. symmetry. apply orb_false_intro.
      * destruct (N.lt_ge_cases k 32); [|now apply N.mod_pow2_bits_high].
        rewrite N.mod_pow2_bits_low, N.shiftl_spec_high' by lia. apply N.ones_spec_high. lia.
      * change 1 with (2 ^ 0). apply N.pow2_bits_false. lia.
Qed.

Definition shr_new (nw j : nat) (pos m : N) (b : list N) (i : nat) : N :=
  if (pos <? W) && (i + j <? nw)%nat then
    let lo := N.shiftr (nth (i + j)%nat b 0) pos in
    if (i + j + 1 <? nw)%nat then N.lor lo (N.shiftl (N.land (nth (i + j + 1)%nat b 0) m) (W - pos) mod UINT_MOD) else lo
  else 0.

Lemma shr_fold : forall nw j pos m b n, length b = nw -> (n <= nw)%nat ->
  length (fold_left (bs_shr_step nw j pos m) (seq 0 n) b) = nw /\
  forall k, nth k (fold_left (bs_shr_step nw j pos m) (seq 0 n) b) 0 =
            if (k <? n)%nat then shr_new nw j pos m b k else nth k b 0.
Proof.
  intros nw j pos m b n L. induction n as [|n IH]; intro Hn.
  - split; auto.
  - destruct IH as [IL IN]; [lia|]. rewrite seq_S, fold_left_app. cbn [fold_left plus].
    set (b' := fold_left _ (seq 0 n) b) in *.
    assert (E : bs_shr_step nw j pos m b' n = upd n (shr_new nw j pos m b n) b').
    { unfold bs_shr_step, shr_new. rewrite !IN.
      replace (n + j <? n)%nat with false by (symmetry; apply Nat.ltb_ge; lia).
      replace (n + j + 1 <? n)%nat with false by (symmetry; apply Nat.ltb_ge; lia).
      destruct ((pos <? W) && (n + j <? nw)%nat); reflexivity. }
    rewrite E. split; [now rewrite upd_length|]. intro k. rewrite upd_nth, IN, IL.
    replace (n <? nw)%nat with true by (symmetry; apply Nat.ltb_lt; lia).
    destruct (Nat.eqb_spec n k) as [->|NE].
    + now replace (k <? S k)%nat with true by (symmetry; apply Nat.ltb_lt; lia).
    + destruct (Nat.ltb_spec k n), (Nat.ltb_spec k (S n)); auto; lia.
Qed.

Lemma shr_new_bits : forall nw j pos b i r, bs_wf nw b -> pos < 32 -> r < 32 ->
  N.testbit (shr_new nw j pos (N.ones pos) b i) r =
  if r + pos <? 32 then N.testbit (nth (i + j) b 0) (r + pos) else N.testbit (nth (i + j + 1) b 0) (r + pos - 32).
Proof.
  intros nw j pos b i r Hwf Hp Hr. unfold shr_new.
  replace (pos <? W) with true by (symmetry; apply N.ltb_lt; auto). cbn [andb].
  assert (Hout : forall q, (nw <= q)%nat -> nth q b 0 = 0) by (intros; apply nth_overflow; destruct Hwf; lia).
  destruct (Nat.ltb_spec (i + j) nw) as [Lt|Ge].
  - destruct (Nat.ltb_spec (i + j + 1) nw) as [Lt'|Ge'].
    + rewrite N.lor_spec, N.shiftr_spec'. unfold UINT_MOD. rewrite N.mod_pow2_bits_low by auto.
      destruct (N.ltb_spec (r + pos) 32) as [A|A].
      * rewrite N.shiftl_spec_low by (unfold W; lia). apply orb_false_r.
      * rewrite (testbit_high (nth (i+j) b 0)) by (auto; apply (wf_nth nw); auto). cbn [orb].
        rewrite N.shiftl_spec_high' by (unfold W; lia). rewrite N.land_spec, N.ones_spec_low by (unfold W; lia).
        rewrite andb_true_r. f_equal. unfold W; lia.
    + rewrite N.shiftr_spec'. rewrite (Hout (i + j + 1)%nat) by lia. rewrite N.bits_0.
      destruct (N.ltb_spec (r + pos) 32) as [A|A]; auto. apply testbit_high; auto. apply (wf_nth nw); auto.
  - rewrite !Hout by lia. rewrite !N.bits_0. now destruct (r + pos <? 32).
Qed.

Lemma shr_ok : forall nw b k, bs_wf nw b -> bs_wf nw (bs_shr nw k b) /\ bs_value (bs_shr nw k b) = N.shiftr (bs_value b) k.
Proof.
  intros nw b k Hwf. unfold bs_shr. rewrite widx_eq, woff_eq.
  pose proof (N.mod_lt k 32 ltac:(discriminate)) as Hp.
  assert (Hm : bs_mask (N.to_nat (k mod 32)) 0 = N.ones (k mod 32)).
  { change 0 with (N.ones (N.of_nat 0)). rewrite mask_ok by lia. f_equal. lia. }
  rewrite Hm. pose proof Hwf as [HL HF].
  destruct (shr_fold nw (N.to_nat (k / 32)) (k mod 32) (N.ones (k mod 32)) b nw HL (le_n _)) as [L N0].
  set (b' := fold_left _ _ b) in *.
  assert (F : Forall (fun w => w < 2 ^ 32) b').
  { apply Forall_forall. intros w Hw. destruct (In_nth _ _ 0 Hw) as (i & Hi & <-). rewrite N0.
    replace (i <? nw)%nat with true by (symmetry; apply Nat.ltb_lt; lia).
    unfold shr_new. destruct (_ && _); [|reflexivity].
    assert (B : forall q, N.shiftr (nth q b 0) (k mod 32) < 2 ^ 32).
    { intro q. apply lt_bits32. intros z Hz. rewrite N.shiftr_spec'. apply testbit_high; [now apply (wf_nth nw)|apply N.le_trans with z; [auto|apply N.le_add_r]]. }
    destruct (_ <? nw)%nat; auto. apply lt_bits32. intros z Hz. rewrite N.lor_spec, testbit_high by auto.
    unfold UINT_MOD. now rewrite N.mod_pow2_bits_high. }
  split; [split; auto|].
  apply N.bits_inj. intro n. rewrite N.shiftr_spec', !value_bits by auto. rewrite N0.
  destruct (Nat.ltb_spec (N.to_nat (n / 32)) nw) as [Lt|Ge].
  - rewrite shr_new_bits by (auto; apply N.mod_lt; discriminate).
    assert (Dn := N.div_mod n 32 ltac:(discriminate)). assert (Dk := N.div_mod k 32 ltac:(discriminate)).
    assert (Hr := N.mod_lt n 32 ltac:(discriminate)).
    revert Dn Dk Hr Hp. generalize (n / 32) as q, (n mod 32) as r, (k / 32) as q', (k mod 32) as r'. intros q r q' r' Dn Dk Hr Hp.
    destruct (N.ltb_spec (r + r') 32) as [A|A].
    + rewrite <- (N.div_unique (n + k) 32 (q + q') (r + r')) by lia.
      rewrite <- (N.mod_unique (n + k) 32 (q + q') (r + r')) by lia. f_equal. f_equal. lia.
    + rewrite <- (N.div_unique (n + k) 32 (q + q' + 1) (r + r' - 32)) by lia.
      rewrite <- (N.mod_unique (n + k) 32 (q + q' + 1) (r + r' - 32)) by lia. f_equal. f_equal. lia.
  - rewrite !nth_overflow; [now rewrite !N.bits_0| |lia].
    assert (n / 32 <= (n + k) / 32) by (apply N.div_le_mono; lia). lia.
Qed.

(** ** count *)
Lemma land_pow2_0 : forall x o, (N.land x (2 ^ o) =? 0) = negb (N.testbit x o).
Proof.
  intros x o. destruct (N.testbit x o) eqn:E.
  - apply N.eqb_neq. intro H. apply (f_equal (fun z => N.testbit z o)) in H.
    rewrite N.land_spec, E, N.pow2_bits_true, N.bits_0 in H. discriminate.
  - apply N.eqb_eq. apply N.bits_inj. intro k. rewrite N.land_spec, N.pow2_bits_eqb, N.bits_0.
    destruct (N.eqb_spec o k) as [<-|]; [now rewrite E|apply andb_false_r].
Qed.

Lemma count_loop_ok : forall nw b k i o c, bs_wf nw b -> o < 32 -> 32 * N.of_nat i + o + N.of_nat k <= 32 * N.of_nat nw ->
  bs_count_loop k i (2 ^ o) c b =
  Some (c + ones_below (N.to_nat (32 * N.of_nat i + o) + k) (bs_value b) - ones_below (N.to_nat (32 * N.of_nat i + o)) (bs_value b)).
Proof.
  intros nw b k. induction k as [|k IH]; intros i o c Hwf Ho Hle; cbn [bs_count_loop].
  - f_equal. rewrite Nat.add_0_r. lia.
  - pose proof Hwf as [HL HF]. rewrite nth_error_nth_N by lia. rewrite land_pow2_0.
    set (p := N.to_nat (32 * N.of_nat i + o)) in *.
    assert (Ep : 32 * N.of_nat i + o = N.of_nat p) by (unfold p; lia).
    assert (Eb : N.testbit (nth i b 0) o = N.testbit (bs_value b) (N.of_nat p)).
    { rewrite value_bits by auto. rewrite <- Ep.
      rewrite <- (N.div_unique (32 * N.of_nat i + o) 32 (N.of_nat i) o) by lia.
      rewrite <- (N.mod_unique (32 * N.of_nat i + o) 32 (N.of_nat i) o) by lia. now rewrite Nat2N.id. }
    rewrite Eb.
    assert (Mono : forall q r x, ones_below q x <= ones_below (q + r) x).
    { intros q r x. induction r; [rewrite Nat.add_0_r; lia|]. rewrite Nat.add_succ_r. cbn [ones_below]. lia. }
    assert (Step : ones_below (S p) (bs_value b) = ones_below p (bs_value b) + (if N.testbit (bs_value b) (N.of_nat p) then 1 else 0)) by reflexivity.
    pose proof (Mono (S p) k (bs_value b)) as M1.
    replace (p + S k)%nat with (S p + k)%nat by lia.
    rewrite N.shiftl_mul_pow2, N.pow_1_r. unfold UINT_MOD.
    destruct (N.eq_dec o 31) as [->|NE].
    + change ((2 ^ 31 * 2) mod 2 ^ 32 =? 0) with true. cbn iota. change 1 with (2 ^ 0) at 1.
      rewrite IH by (auto; lia).
      replace (N.to_nat (32 * N.of_nat (S i) + 0)) with (S p) by (unfold p; lia).
      f_equal. rewrite Step in *. destruct (N.testbit (bs_value b) (N.of_nat p)); cbn [negb]; lia.
    + replace (2 ^ o * 2) with (2 ^ (o + 1)) by (rewrite N.pow_add_r; reflexivity).
      rewrite N.mod_small by (apply N.pow_lt_mono_r; lia).
      replace (2 ^ (o + 1) =? 0) with false by (symmetry; apply N.eqb_neq; apply N.pow_nonzero; discriminate).
      rewrite IH by (auto; lia).
      replace (N.to_nat (32 * N.of_nat i + (o + 1))) with (S p) by (unfold p; lia).
      f_equal. rewrite Step in *. destruct (N.testbit (bs_value b) (N.of_nat p)); cbn [negb]; lia.
Qed.

Lemma count_ok : forall nw b J, bs_wf nw b -> J <= 32 * N.of_nat nw -> bs_count J b = Some (ones_below (N.to_nat J) (bs_value b)).
Proof.
  intros nw b J Hwf H. unfold bs_count. change (bs_count_loop (N.to_nat J) 0 1 0 b) with (bs_count_loop (N.to_nat J) 0 (2 ^ 0) 0 b).
  rewrite (count_loop_ok nw) by (auto; lia). change (N.to_nat (32 * N.of_nat 0 + 0)) with 0%nat. cbn [ones_below plus]. f_equal. lia.
Qed.

Lemma value_repeat0 : forall n, bs_value (repeat 0 n) = 0.
Proof. induction n; cbn [repeat bs_value]; auto. rewrite IHn. reflexivity. Qed.

Lemma of_ulong_ok : forall nw u, (2 <= nw)%nat -> u < 2 ^ 64 ->
  exists b, bs_of_ulong nw u = Some b /\ bs_wf nw b /\ bs_value b = u /\ bs_to_ulong b = Some u.
Proof.
  intros nw u H Hu. destruct nw as [|[|nw]]; try lia. unfold bs_of_ulong. cbn [Nat.ltb Nat.leb].
  eexists; split; [reflexivity|]. unfold bs_reset_all. cbn [repeat upd].
  assert (H1 : N.shiftr u W mod UINT_MOD = u / 2 ^ 32).
  { rewrite N.shiftr_div_pow2. unfold W, UINT_MOD. apply N.mod_small. apply N.div_lt_upper_bound; [discriminate|]. exact Hu. }
  rewrite H1. unfold UINT_MOD.
  assert (D := N.div_mod u (2 ^ 32) ltac:(discriminate)).
  assert (B1 : u mod 2 ^ 32 < 2 ^ 32) by (apply N.mod_lt; discriminate).
  assert (B2 : u / 2 ^ 32 < 2 ^ 32) by (apply N.div_lt_upper_bound; [discriminate|exact Hu]).
  split; [split|split].
  - cbn [length]. now rewrite repeat_length.
  - constructor; auto. constructor; auto. clear. induction nw; cbn [repeat]; constructor; auto. reflexivity.
  - cbn [bs_value]. rewrite value_repeat0. rewrite N.mul_0_r, N.add_0_r. rewrite N.add_comm. symmetry. exact D.
  - cbn [bs_to_ulong]. f_equal. rewrite N.shiftl_mul_pow2. unfold W. rewrite (N.mul_comm (u / 2 ^ 32)).
    assert (2 ^ 32 * (u / 2 ^ 32) < 2 ^ 64).
    { apply N.le_lt_trans with u; auto. apply N.mul_div_le. discriminate. }
    rewrite (N.mod_small (2 ^ 32 * _)) by auto. rewrite <- D. apply N.mod_small. auto.
Qed.

(** ** statements in terms of single bits *)
Lemma set_frame : forall nw b n, bs_wf nw b -> n < 32 * N.of_nat nw ->
  exists b', bs_set n true b = Some b' /\ bs_wf nw b' /\
    forall m, N.testbit (bs_value b') m = if n =? m then true else N.testbit (bs_value b) m.
Proof.
  intros nw b n H Hn. destruct (set_ok nw b n H Hn) as (b' & E & W' & V). exists b'. repeat split; auto; try apply W'.
  intro m. rewrite V, N.setbit_eqb. now destruct (n =? m).
Qed.
Lemma reset_frame : forall nw b n, bs_wf nw b -> n < 32 * N.of_nat nw ->
  exists b', bs_reset n b = Some b' /\ bs_set n false b = Some b' /\ bs_wf nw b' /\
    forall m, N.testbit (bs_value b') m = if n =? m then false else N.testbit (bs_value b) m.
Proof.
  intros nw b n H Hn. destruct (reset_ok nw b n H Hn) as (b' & E & W' & V). exists b'. repeat split; auto; try apply W'.
  intro m. rewrite V, N.clearbit_eqb. destruct (n =? m); [apply andb_false_r|apply andb_true_r].
Qed.
Lemma reset_all_ok : forall nw, bs_wf nw (bs_reset_all nw) /\ forall m, N.testbit (bs_value (bs_reset_all nw)) m = false.
Proof.
  intro nw. unfold bs_reset_all. split.
  - split; [apply repeat_length|]. apply Forall_forall. intros x Hx. apply repeat_spec in Hx. subst. reflexivity.
  - intro m. rewrite value_repeat0. apply N.bits_0.
Qed.
Lemma set_all_ok : forall nw, bs_wf nw (bs_set_all nw) /\
  forall m, m < 32 * N.of_nat nw -> N.testbit (bs_value (bs_set_all nw)) m = true.
Proof.
  intro nw. unfold bs_set_all.
  assert (F : Forall (fun w => w < 2 ^ 32) (repeat (UINT_MOD - 1) nw)).
  { apply Forall_forall. intros x Hx. apply repeat_spec in Hx. subst. reflexivity. }
  split; [split; [apply repeat_length|auto]|].
  intros m Hm. rewrite value_bits by auto. pose proof (idx_lt nw m Hm) as Hi.
  rewrite (nth_indep _ 0 (UINT_MOD - 1)) by (rewrite repeat_length; auto). rewrite nth_repeat.
  change (UINT_MOD - 1) with (N.ones 32). apply N.ones_spec_low. apply N.mod_lt. discriminate.
Qed.
Lemma or_frame : forall nw a b, bs_wf nw a -> bs_wf nw b -> bs_wf nw (bs_or a b) /\
  forall m, N.testbit (bs_value (bs_or a b)) m = (N.testbit (bs_value a) m || N.testbit (bs_value b) m)%bool.
Proof. intros nw a b Ha Hb. destruct (or_ok nw a b Ha Hb) as [H V]. split; auto. intro. rewrite V. apply N.lor_spec. Qed.
Lemma and_frame : forall nw a b, bs_wf nw a -> bs_wf nw b -> bs_wf nw (bs_and a b) /\
  forall m, N.testbit (bs_value (bs_and a b)) m = (N.testbit (bs_value a) m && N.testbit (bs_value b) m)%bool.
Proof. intros nw a b Ha Hb. destruct (and_ok nw a b Ha Hb) as [H V]. split; auto. intro. rewrite V. apply N.land_spec. Qed.
Lemma xor_frame : forall nw a b, bs_wf nw a -> bs_wf nw b -> bs_wf nw (bs_xor a b) /\
  forall m, N.testbit (bs_value (bs_xor a b)) m = xorb (N.testbit (bs_value a) m) (N.testbit (bs_value b) m).
Proof. intros nw a b Ha Hb. destruct (xor_ok nw a b Ha Hb) as [H V]. split; auto. intro. rewrite V. apply N.lxor_spec. Qed.
Lemma eq_frame : forall nw a b, bs_wf nw a -> bs_wf nw b ->
  (bs_eq a b = true <-> forall m, N.testbit (bs_value a) m = N.testbit (bs_value b) m).
Proof.
  intros nw a b Ha Hb. rewrite (eq_ok nw) by auto. split; [intros -> m; reflexivity|intro H; now apply N.bits_inj].
Qed.
Lemma order_ok : forall nw a b c, bs_wf nw a -> bs_wf nw b -> bs_wf nw c ->
  bs_lt nw a a = false /\
  (bs_lt nw a b = true -> bs_lt nw b c = true -> bs_lt nw a c = true) /\
  ((bs_lt nw a b = true /\ bs_lt nw b a = false /\ bs_eq a b = false) \/
   (bs_lt nw a b = false /\ bs_lt nw b a = true /\ bs_eq a b = false) \/
   (bs_lt nw a b = false /\ bs_lt nw b a = false /\ bs_eq a b = true)) /\
  bs_gt nw a b = bs_lt nw b a.
Proof.
  intros nw a b c Ha Hb Hc.
  rewrite !(proj1 (lt_ok nw _ _ Ha Ha)), !(proj1 (lt_ok nw _ _ Ha Hb)), !(proj1 (lt_ok nw _ _ Hb Hc)), !(proj1 (lt_ok nw _ _ Ha Hc)),
    !(proj1 (lt_ok nw _ _ Hb Ha)), (proj2 (lt_ok nw _ _ Ha Hb)).
  assert (E : bs_eq a b = (bs_value a =? bs_value b)).
  { destruct (bs_eq a b) eqn:E.
    - symmetry. apply N.eqb_eq. now apply (eq_ok nw a b).
    - symmetry. apply N.eqb_neq. intro H. apply (eq_ok nw a b) in H; auto. congruence. }
  rewrite E. repeat split.
  - apply N.ltb_irrefl.
  - rewrite !N.ltb_lt. apply N.lt_trans.
  - destruct (N.lt_total (bs_value a) (bs_value b)) as [H|[H|H]].
    + left. repeat split; [now apply N.ltb_lt|apply N.ltb_ge; lia|apply N.eqb_neq; lia].
    + right; right. rewrite H. now rewrite N.ltb_irrefl, N.eqb_refl.
    + right; left. repeat split; [apply N.ltb_ge; lia|now apply N.ltb_lt|apply N.eqb_neq; lia].
Qed.
Lemma plus_ok' : forall nw a b, bs_wf nw a -> bs_wf nw b ->
  Forall (fun w => w < 2 ^ 31) b -> Forall (fun w => w < 2 ^ 32 - 1) (tl a) ->
  bs_wf nw (bs_plus a b) /\ bs_value (bs_plus a b) = (bs_value a + bs_value b) mod 2 ^ (32 * N.of_nat nw).
Proof.
  intros nw a b [La Fa] [Lb Fb] Hb Ha. subst nw.
  destruct (plus_ok a b (eq_sym Lb) Hb) as (V & F & L).
  { destruct a; auto. split; auto. now inversion Fa. }
  repeat split; auto.
Qed.
Lemma plus_refuted : exists a b, bs_wf 2 a /\ bs_wf 2 b /\
  bs_value (bs_plus a b) <> (bs_value a + bs_value b) mod 2 ^ (32 * N.of_nat 2) /\
  bs_value (bs_plus b a) = (bs_value a + bs_value b) mod 2 ^ (32 * N.of_nat 2).
Proof. exists [1; 0], [2^32 - 1; 0]. repeat split; repeat constructor. vm_compute. discriminate. Qed.
Lemma shr_frame : forall nw b k, bs_wf nw b -> bs_wf nw (bs_shr nw k b) /\
  forall i, N.testbit (bs_value (bs_shr nw k b)) i = N.testbit (bs_value b) (i + k).
Proof. intros nw b k H. destruct (shr_ok nw b k H) as [Hw V]. split; auto. intro i. rewrite V. apply N.shiftr_spec'. Qed.
Lemma count_loop_oob : forall nw b k i o c, bs_wf nw b -> o < 32 -> (i <= nw)%nat -> 32 * N.of_nat nw < 32 * N.of_nat i + o + N.of_nat k ->
  32 * N.of_nat i + o <= 32 * N.of_nat nw -> bs_count_loop k i (2 ^ o) c b = None.
Proof.
  intros nw b k. induction k as [|k IH]; intros i o c Hwf Ho Hi Hlt Hle; cbn [bs_count_loop]; [lia|].
  destruct (nth_error b i) eqn:E; auto.
  assert (Hi' : (i < nw)%nat) by (destruct Hwf as [<- _]; apply nth_error_Some; congruence).
  rewrite N.shiftl_mul_pow2, N.pow_1_r. unfold UINT_MOD.
  destruct (N.eq_dec o 31) as [->|NE].
  - change ((2 ^ 31 * 2) mod 2 ^ 32 =? 0) with true. cbn iota. change 1 with (2 ^ 0) at 1. apply IH; auto; lia.
  - replace (2 ^ o * 2) with (2 ^ (o + 1)) by (rewrite N.pow_add_r; reflexivity).
    rewrite N.mod_small by (apply N.pow_lt_mono_r; lia).
    replace (2 ^ (o + 1) =? 0) with false by (symmetry; apply N.eqb_neq; apply N.pow_nonzero; discriminate).
    apply IH; auto; lia.
Qed.
Lemma count_oob : forall nw b J, bs_wf nw b -> 32 * N.of_nat nw < J -> bs_count J b = None.
Proof.
  intros nw b J H HJ. unfold bs_count. change (bs_count_loop (N.to_nat J) 0 1 0 b) with (bs_count_loop (N.to_nat J) 0 (2 ^ 0) 0 b).
  apply (count_loop_oob nw); auto; lia.
Qed.
