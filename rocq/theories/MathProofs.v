From Coq Require Import ZArith Reals List Lia Lra Psatz.
From Verif Require Import MathSpec MathModel.
Import ListNotations.
Open Scope R_scope.
Lemma exp_ln_diff : forall x y, exp x = exp y * exp (x - y).
Proof. intros. rewrite <- exp_plus. f_equal. lra. Qed.
Lemma sumlog_ok : forall x y, lns_sumlog x y = ln (exp x + exp y).
Proof.
  assert (G : forall x y, x + ln (1 + exp (y - x)) = ln (exp x + exp y)).
  { intros x y. replace (exp x + exp y) with (exp x * (1 + exp (y - x))) by (rewrite (exp_ln_diff y x); ring). pose proof (exp_pos (y - x)). rewrite ln_mult, ln_exp; [reflexivity|apply exp_pos|lra]. }
  intros x y. unfold lns_sumlog. destruct (Rlt_dec y x); rewrite G; [reflexivity|f_equal; ring].
Qed.
Lemma sublog_ok : forall x y, y < x -> lns_sublog x y = ln (exp x - exp y).
Proof.
  intros x y H. unfold lns_sublog. replace (exp x - exp y) with (exp x * (1 - exp (y - x))) by (rewrite (exp_ln_diff y x); ring).
  assert (exp (y - x) < 1) by (rewrite <- exp_0; apply exp_increasing; lra). rewrite ln_mult, ln_exp; [reflexivity|apply exp_pos|lra].
Qed.
(** factorials and binomials *)
Lemma binom_over : forall n k, (n < k)%nat -> binom n k = 0%nat.
Proof. induction n as [|n IH]; intros [|k] H; try lia; [reflexivity|]. cbn. rewrite !IH by lia. reflexivity. Qed.
Lemma binom_fact : forall n k, (k <= n)%nat -> (binom n k * (fact k * fact (n - k)) = fact n)%nat.
Proof.
  induction n as [|n IH]; intros [|k] H; [reflexivity|lia|cbn [binom fact Nat.sub]; rewrite Nat.mul_1_l; cbn; lia|].
  cbn [binom]. destruct (Nat.eq_dec k n) as [->|N].
  - rewrite (binom_over n (S n)) by lia. specialize (IH n ltac:(lia)). rewrite Nat.sub_diag in *. cbn [fact] in *. nia.
  - pose proof (IH k ltac:(lia)) as A. pose proof (IH (S k) ltac:(lia)) as B. replace (S n - S k)%nat with (n - k)%nat by lia.
    replace (n - k)%nat with (S (n - S k)) in * by lia. cbn [fact] in *. set (x := binom n k) in *. set (y := binom n (S k)) in *. set (f := fact k) in *. set (g := fact (n - S k)) in *. set (h := fact n) in *.
    assert (E : S n = (S k + S (n - S k))%nat) by lia. nia.
Qed.
Lemma binom_pos : forall n k, (k <= n)%nat -> (0 < binom n k)%nat.
Proof. intros n k H. pose proof (binom_fact n k H). pose proof (lt_O_fact n). nia. Qed.
Lemma logFactorial_ok : forall n, logFactorial n = ln (INR (fact n)).
Proof.
  unfold logFactorial. induction n as [|n IH]; [cbn; rewrite ln_1; reflexivity|]. rewrite seq_S, fold_left_app, IH. cbn [fold_left plus]. change (1 + n)%nat with (S n).
  change (fact (S n)) with ((S n) * fact n)%nat. rewrite mult_INR, ln_mult; [ring|apply lt_0_INR; lia|apply INR_fact_lt_0].
Qed.
Lemma logCombmn_ok : forall m n, (n <= m)%nat -> logCombmn m n = ln (INR (binom m n)).
Proof.
  intros m n H. unfold logCombmn. rewrite !logFactorial_ok, <- (binom_fact m n H), !mult_INR. rewrite ln_mult, ln_mult; [ring|apply INR_fact_lt_0|apply INR_fact_lt_0|apply lt_0_INR, binom_pos, H|].
  apply Rmult_lt_0_compat; apply INR_fact_lt_0.
Qed.
Lemma fold_plus_acc : forall (f : nat -> R) l a, fold_left (fun s i => s + f i) l a = a + fold_right (fun i s => f i + s) 0 l.
Proof. intros f l; induction l as [|x l IH]; intros a; cbn; [ring|]. rewrite IH. ring. Qed.
Lemma fold_right_rev_sum : forall (f : nat -> R) l, fold_right (fun i s => f i + s) 0 (rev l) = fold_right (fun i s => f i + s) 0 l.
Proof.
  intros f l; induction l as [|x l IH]; [reflexivity|]. cbn [rev fold_right]. rewrite fold_right_app. cbn [fold_right].
  assert (G : forall l a, fold_right (fun i s => f i + s) a l = fold_right (fun i s => f i + s) 0 l + a) by (induction l0 as [|y l0 IH0]; intros a; cbn; [ring|rewrite IH0; ring]).
  rewrite G, IH. ring.
Qed.
Lemma down_sum : forall J k, (k <= J)%nat -> fold_left (fun s i => s + ln (INR i)) (down J k) 0 = logFactorial J - logFactorial k.
Proof.
  intros J k H. rewrite fold_plus_acc. unfold down. rewrite fold_right_rev_sum. unfold logFactorial. rewrite !fold_plus_acc.
  replace (seq 1 J) with (seq 1 k ++ seq (1 + k) (J - k)) by (rewrite <- seq_app; f_equal; lia). rewrite fold_right_app. cbn [plus].
  assert (G : forall l a, fold_right (fun i s => ln (INR i) + s) a l = fold_right (fun i s => ln (INR i) + s) 0 l + a) by (induction l as [|y l0 IH0]; intros a; cbn; [ring|rewrite IH0; ring]).
  rewrite (G (seq 1 k)). ring.
Qed.
Lemma numbPerms_ok : forall J l, (1 <= l <= J)%nat -> logNumbPermsOfTwoElems J l = ln (INR (binom J l)).
Proof.
  intros J l H. unfold logNumbPermsOfTwoElems. destruct (Nat.leb_spec l J); [|lia]. destruct (Nat.eqb_spec l 0); [lia|]. rewrite <- logCombmn_ok by lia. unfold logCombmn.
  destruct (l <? J - l)%nat; rewrite down_sum by lia; ring.
Qed.
(** the integer versions *)
Lemma mp_factorial_ok : forall n, mp_factorial n = Z.of_nat (fact n).
Proof.
  unfold mp_factorial. induction n as [|n IH]; [reflexivity|]. rewrite seq_S, fold_left_app, IH. cbn [fold_left plus]. change (1 + n)%nat with (S n). change (fact (S n)) with ((S n) * fact n)%nat. lia.
Qed.
Lemma cdiv_exact : forall a b, (0 < b)%Z -> cdiv (a * b) b = a.
Proof. intros a b H. unfold cdiv. replace (- (a * b))%Z with (- a * b)%Z by ring. rewrite Z.div_mul by lia. ring. Qed.
Lemma fact_Zpos : forall n, (0 < Z.of_nat (fact n))%Z.
Proof. intros n. pose proof (lt_O_fact n). lia. Qed.
Lemma mp_comb_ok : forall m n, (n <= m)%nat -> mp_logCombmn m n = Z.of_nat (binom m n).
Proof.
  intros m n H. unfold mp_logCombmn. rewrite !mp_factorial_ok, <- (binom_fact m n H). rewrite !Nat2Z.inj_mul. apply cdiv_exact. pose proof (fact_Zpos n). pose proof (fact_Zpos (m - n)). nia.
Qed.
Lemma fold_mult_acc : forall l a, fold_left (fun s i => (s * Z.of_nat i)%Z) l a = (a * fold_right (fun i s => (Z.of_nat i * s)%Z) 1%Z l)%Z.
Proof. intros l; induction l as [|x l IH]; intros a; cbn [fold_left fold_right]; [ring|]. rewrite IH. ring. Qed.
Lemma fold_right_acc_mul : forall l a, fold_right (fun i s => (Z.of_nat i * s)%Z) a l = (fold_right (fun i s => (Z.of_nat i * s)%Z) 1%Z l * a)%Z.
Proof. induction l as [|y l IH]; intros a; cbn [fold_right]; [ring|]. rewrite IH. ring. Qed.
Lemma down_prod : forall J k, (k <= J)%nat -> (fold_left (fun s i => (s * Z.of_nat i)%Z) (down J k) 1 * Z.of_nat (fact k) = Z.of_nat (fact J))%Z.
Proof.
  intros J k H. rewrite <- !mp_factorial_ok. unfold mp_factorial, down. rewrite !fold_mult_acc, !Z.mul_1_l.
  replace (seq 1 J) with (seq 1 k ++ seq (1 + k) (J - k)) by (rewrite <- seq_app; f_equal; lia). rewrite fold_right_app. cbn [plus]. rewrite (fold_right_acc_mul (seq 1 k) (fold_right _ _ (seq (S k) _))).
  assert (R : forall l, fold_right (fun i s => (Z.of_nat i * s)%Z) 1%Z (rev l) = fold_right (fun i s => (Z.of_nat i * s)%Z) 1%Z l).
  { induction l as [|x l IH]; [reflexivity|]. cbn [rev]. rewrite fold_right_app. cbn [fold_right]. rewrite fold_right_acc_mul, IH. ring. }
  rewrite R. ring.
Qed.
Lemma mp_perms_ok : forall m n, mp_numbPermsOfTwoElems m n = Z.of_nat (binom m n).
Proof.
  intros m n. unfold mp_numbPermsOfTwoElems. destruct (Nat.leb_spec n m) as [H|H]; [|rewrite binom_over by exact H; reflexivity].
  destruct (Nat.eqb_spec n 0) as [->|N]; [destruct m; reflexivity|]. rewrite !mp_factorial_ok. pose proof (binom_fact m n H) as B.
  destruct (n <? m - n)%nat.
  - pose proof (down_prod m (m - n) ltac:(lia)) as D. rewrite <- B in D. rewrite !Nat2Z.inj_mul in D. pose proof (fact_Zpos (m - n)).
    replace (fold_left _ _ _) with (Z.of_nat (binom m n) * Z.of_nat (fact n))%Z by nia. apply cdiv_exact, fact_Zpos.
  - pose proof (down_prod m n ltac:(lia)) as D. rewrite <- B in D. rewrite !Nat2Z.inj_mul in D. pose proof (fact_Zpos n).
    replace (fold_left _ _ _) with (Z.of_nat (binom m n) * Z.of_nat (fact (m - n)))%Z by nia. apply cdiv_exact, fact_Zpos.
Qed.
(** distributions *)
Lemma exp_nln : forall n x, 0 < x -> exp (INR n * ln x) = x ^ n.
Proof. intros n x H. rewrite <- Rpower_pow by exact H. unfold Rpower. reflexivity. Qed.
Lemma log_poisson_ok : forall x l, log_poisson x l = - l + INR x * ln l - logFactorial x.
Proof.
  intros x l. unfold log_poisson, logFactorial.
  assert (G : forall L a b, fold_left (fun s i => s - ln (INR i)) L (a - b) = a - fold_left (fun s i => s + ln (INR i)) L b).
  { induction L as [|y L IH]; intros a b; cbn; [reflexivity|]. rewrite <- IH. f_equal. ring. }
  rewrite <- (G _ (- l + INR x * ln l) 0). f_equal. ring.
Qed.
Lemma poisson_ok : forall x l, 0 < l -> poisson x l = exp (- l) * (l ^ x / INR (fact x)).
Proof.
  intros x l H. unfold poisson. rewrite log_poisson_ok, logFactorial_ok. unfold Rminus. rewrite !exp_plus, exp_nln by exact H. rewrite (exp_Ropp (ln _)), exp_ln by apply INR_fact_lt_0. unfold Rdiv. ring.
Qed.
Lemma fold_seq_rsum : forall f n, fold_left (fun s k => s + f k) (seq 0 n) 0 = rsum f n.
Proof. intros f n; induction n as [|n IH]; [reflexivity|]. rewrite seq_S, fold_left_app, IH. reflexivity. Qed.
Lemma rsum_sum_f : forall f n, rsum f (S n) = sum_f_R0 f n.
Proof. intros f n; induction n as [|n IH]; [cbn; ring|]. cbn [sum_f_R0]. rewrite <- IH. reflexivity. Qed.
Lemma rsum_ext : forall f g n, (forall k, (k < n)%nat -> f k = g k) -> rsum f n = rsum g n.
Proof. intros f g n; induction n as [|n IH]; intros H; [reflexivity|]. cbn. rewrite IH, H by (intros; try apply H; lia). reflexivity. Qed.
Lemma rsum_scal : forall f c n, rsum (fun k => c * f k) n = c * rsum f n.
Proof. intros f c n; induction n as [|n IH]; cbn; [ring|]. rewrite IH. ring. Qed.
Lemma poisson_cdf_ok : forall x l, 0 < l -> poisson_cdf x l = exp (- l) * sum_f_R0 (fun k => l ^ k / INR (fact k)) x.
Proof.
  intros x l H. unfold poisson_cdf. rewrite fold_seq_rsum, <- rsum_sum_f, <- rsum_scal. apply rsum_ext. intros k _. apply poisson_ok, H.
Qed.
Lemma poisson_cdf_bounds : forall x l, 0 < l -> 0 < poisson_cdf x l <= 1 /\ poisson_cdf x l <= poisson_cdf (S x) l.
Proof.
  intros x l H. rewrite !poisson_cdf_ok by exact H. pose proof (exp_pos (- l)) as E.
  assert (Pos : forall k, 0 < l ^ k / INR (fact k)) by (intros k; apply Rdiv_lt_0_compat; [apply pow_lt, H|apply INR_fact_lt_0]).
  assert (Le : sum_f_R0 (fun k => l ^ k / INR (fact k)) x <= exp l).
  { apply sum_incr; [|intros k; apply Rlt_le, Pos]. unfold exp. destruct (exist_exp l) as [e He]. cbn [proj1_sig]. unfold exp_in, infinite_sum in He. intros eps He0. destruct (He eps He0) as [N HN]. exists N. intros n Hn. specialize (HN n Hn).
    replace (sum_f_R0 (fun k => l ^ k / INR (fact k)) n) with (sum_f_R0 (fun i => / INR (fact i) * l ^ i) n); [exact HN|]. apply sum_eq. intros i _. unfold Rdiv. ring. }
  assert (P0 : 0 < sum_f_R0 (fun k => l ^ k / INR (fact k)) x).
  { rewrite <- rsum_sum_f. clear Le. induction x as [|x IH]; [cbn [rsum]; pose proof (Pos 0%nat); lra|]. change (rsum (fun k => l ^ k / INR (fact k)) (S (S x))) with (rsum (fun k => l ^ k / INR (fact k)) (S x) + l ^ (S x) / INR (fact (S x))). pose proof (Pos (S x)). lra. }
  split; [split|].
  - apply Rmult_lt_0_compat; assumption.
  - apply Rle_trans with (exp (- l) * exp l); [apply Rmult_le_compat_l; lra|]. rewrite <- exp_plus. replace (- l + l) with 0 by ring. rewrite exp_0. lra.
  - apply Rmult_le_compat_l; [lra|]. cbn [sum_f_R0]. pose proof (Pos (S x)). lra.
Qed.
Lemma geom_ok : forall p n, 0 < p < 1 -> geom p n = p * (1 - p) ^ n.
Proof. intros p n H. unfold geom, log_geom. rewrite exp_plus, exp_ln, exp_nln by lra. reflexivity. Qed.
Lemma geom_cdf_ok : forall p n, 0 < p < 1 -> geom_cdf p n = 1 - (1 - p) ^ (S n).
Proof.
  intros p n H. unfold geom_cdf. rewrite fold_seq_rsum. induction n as [|n IH]; [cbn [rsum]; rewrite geom_ok by exact H; cbn; ring|].
  change (rsum (geom p) (S (S n))) with (rsum (geom p) (S n) + geom p (S n)). rewrite IH, geom_ok by exact H. cbn [pow]. ring.
Qed.
Lemma triang_left : forall a b c x, a <= x <= c -> triang_cdf a b c x = (x - a) * (x - a) / ((b - a) * (c - a)).
Proof. intros a b c x H. unfold triang_cdf. destruct (Rle_dec a x); [|lra]. destruct (Rle_dec x c); [reflexivity|lra]. Qed.
Lemma triang_right : forall a b c x, a <= c -> c < x <= b -> triang_cdf a b c x = 1 - (b - x) * (b - x) / ((b - a) * (b - c)).
Proof. intros a b c x H1 H. unfold triang_cdf. destruct (Rle_dec a x); [|lra]. destruct (Rle_dec x c); [lra|]. destruct (Rle_dec x b); [reflexivity|lra]. Qed.
Lemma div_le_iff : forall u v w, 0 < v -> (u / v <= w <-> u <= w * v).
Proof. intros u v w H. split; intros K; [apply Rmult_le_compat_r with (r := v) in K; [|lra]; unfold Rdiv in K; rewrite Rmult_assoc, Rinv_l, Rmult_1_r in K by lra; exact K|]. apply Rmult_le_reg_r with v; [exact H|]. unfold Rdiv. rewrite Rmult_assoc, Rinv_l, Rmult_1_r by lra. exact K. Qed.
Lemma triang_split : forall a b c, a < c < b -> forall x, a <= x <= b -> exists y, triang_cdf a b c x = y /\
  ((x <= c /\ y * ((b - a) * (c - a)) = (x - a) * (x - a)) \/ (c < x /\ (1 - y) * ((b - a) * (b - c)) = (b - x) * (b - x))).
Proof.
  intros a b c H x Hx. destruct (Rle_dec x c) as [K|K].
  - exists (triang_cdf a b c x). split; [reflexivity|]. left. split; [exact K|]. rewrite triang_left by lra. field. lra.
  - exists (triang_cdf a b c x). split; [reflexivity|]. right. split; [lra|]. rewrite triang_right by lra. field. lra.
Qed.
Lemma triang_mono : forall a b c x y, a < c < b -> a <= x <= y -> y <= b -> 0 <= triang_cdf a b c x <= triang_cdf a b c y /\ triang_cdf a b c y <= 1.
Proof.
  intros a b c x y H Hx Hy. destruct (triang_split a b c H x ltac:(lra)) as [u [-> U]]. destruct (triang_split a b c H y ltac:(lra)) as [v [-> V]].
  assert (D1 : 0 < (b - a) * (c - a)) by (apply Rmult_lt_0_compat; lra). assert (D2 : 0 < (b - a) * (b - c)) by (apply Rmult_lt_0_compat; lra).
  assert (Lo : forall p q, 0 < q -> 0 <= p * q -> 0 <= p) by (intros p q Hq K; apply Rmult_le_reg_r with q; lra).
  destruct U as [[U1 U2]|[U1 U2]], V as [[V1 V2]|[V1 V2]]; try lra.
  - assert (0 <= u) by (apply (Lo _ _ D1); rewrite U2; apply Rmult_le_pos; lra). assert (0 <= v - u) by (apply (Lo _ _ D1); nra). assert (0 <= 1 - v) by (apply (Lo _ _ D1); nra). lra.
  - assert (0 <= u) by (apply (Lo _ _ D1); rewrite U2; apply Rmult_le_pos; lra). assert (0 <= 1 - v) by (apply (Lo _ _ D2); nra).
    assert (A1 : u * (b - a) <= c - a) by (assert (0 <= (c - a) - u * (b - a)); [apply (Lo _ (c - a)); [lra|]; nra|lra]).
    assert (A2 : (1 - v) * (b - a) <= b - c) by (assert (0 <= (b - c) - (1 - v) * (b - a)); [apply (Lo _ (b - c)); [lra|]; nra|lra]).
    assert (0 <= v - u) by (apply (Lo _ (b - a)); lra). lra.
  - assert (0 <= 1 - v) by (apply (Lo _ _ D2); nra). assert (0 <= v - u) by (apply (Lo _ _ D2); nra).
    assert (A2 : (1 - u) * (b - a) <= b - c) by (assert (0 <= (b - c) - (1 - u) * (b - a)); [apply (Lo _ (b - c)); [lra|]; nra|lra]).
    assert (0 <= u) by (apply (Lo _ (b - a)); [lra|]; nra). lra.
Qed.
Lemma triang_ends : forall a b c, a < c < b -> triang_cdf a b c a = 0 /\ triang_cdf a b c b = 1.
Proof.
  intros a b c H. split; [rewrite triang_left by lra; field; lra|rewrite triang_right by lra; field; lra].
Qed.
Lemma ln_le_minus1 : forall z, 0 < z -> ln z <= z - 1.
Proof. intros z H. destruct (Req_dec (ln z) 0) as [E|N]; [|pose proof (exp_ineq1 (ln z) N) as K; rewrite exp_ln in K by exact H; lra]. rewrite E. assert (z = 1); [|lra]. rewrite <- (exp_ln z H), E, exp_0. reflexivity. Qed.
Lemma xlogx_mono : forall x y, 0 < x -> x <= y -> y <= 1 -> x * (1 - ln x) <= y * (1 - ln y) /\ (x < y -> x * (1 - ln x) < y * (1 - ln y)).
Proof.
  intros x y H1 H2 H3. assert (K : x * (ln y - ln x) <= y - x).
  { pose proof (ln_le_minus1 (y / x) ltac:(apply Rdiv_lt_0_compat; lra)) as K. unfold Rdiv in K. rewrite ln_mult, ln_Rinv in K by (try apply Rinv_0_lt_compat; lra).
    apply Rmult_le_compat_l with (r := x) in K; [|lra]. replace (x * (y * / x - 1)) with (y - x) in K by (field; lra). lra. }
  assert (L : ln y <= 0) by (rewrite <- ln_1; destruct (Req_dec y 1) as [->|]; [lra|apply Rlt_le, ln_increasing; lra]).
  split; [nra|]. intros Hxy.
  (* strictly: compare x < m < y *)
  set (m := (x + y) / 2). assert (Hm : x < m < y) by (unfold m; lra).
  assert (K1 : x * (ln m - ln x) <= m - x).
  { pose proof (ln_le_minus1 (m / x) ltac:(apply Rdiv_lt_0_compat; lra)) as Q. unfold Rdiv in Q. rewrite ln_mult, ln_Rinv in Q by (try apply Rinv_0_lt_compat; lra).
    apply Rmult_le_compat_l with (r := x) in Q; [|lra]. replace (x * (m * / x - 1)) with (m - x) in Q by (field; lra). lra. }
  assert (K2 : m * (ln y - ln m) <= y - m).
  { pose proof (ln_le_minus1 (y / m) ltac:(apply Rdiv_lt_0_compat; lra)) as Q. unfold Rdiv in Q. rewrite ln_mult, ln_Rinv in Q by (try apply Rinv_0_lt_compat; lra).
    apply Rmult_le_compat_l with (r := m) in Q; [|lra]. replace (m * (y * / m - 1)) with (y - m) in Q by (field; lra). lra. }
  assert (Lm : ln m < 0) by (rewrite <- ln_1; apply ln_increasing; lra).
  assert (A : x * (1 - ln x) < m * (1 - ln m)) by nra. assert (B : m * (1 - ln m) <= y * (1 - ln y)) by nra. lra.
Qed.
Lemma logarithmic_mono : forall a b x y, 0 < a -> a < b -> b <= 1 -> a <= x -> x <= y -> y <= b ->
  0 <= logarithmic_cdf a b x <= logarithmic_cdf a b y /\ logarithmic_cdf a b y <= 1 /\ logarithmic_cdf a b a = 0 /\ logarithmic_cdf a b b = 1.
Proof.
  intros a b x y H1 H2 H3 H4 H5 H6. unfold logarithmic_cdf. destruct (xlogx_mono a b) as [_ D]; try lra. specialize (D H2).
  destruct (xlogx_mono a x) as [A _]; try lra. destruct (xlogx_mono x y) as [B _]; try lra. destruct (xlogx_mono y b) as [C _]; try lra.
  set (fa := a * (1 - ln a)) in *. set (fb := b * (1 - ln b)) in *. set (fx := x * (1 - ln x)) in *. set (fy := y * (1 - ln y)) in *.
  replace ((fa - fx) / (fa - fb)) with ((fx - fa) / (fb - fa)) by (field; lra). replace ((fa - fy) / (fa - fb)) with ((fy - fa) / (fb - fa)) by (field; lra).
  assert (I : 0 < / (fb - fa)) by (apply Rinv_0_lt_compat; lra). assert (E : (fb - fa) * / (fb - fa) = 1) by (field; lra). unfold Rdiv.
  split; [split; [apply Rmult_le_pos; lra|apply Rmult_le_compat_r; lra]|]. split; [rewrite <- E; apply Rmult_le_compat_r; lra|]. split; [ring|field; lra].
Qed.
