(** C52, C59, C60: the numeric functions, over the real numbers. *)
From Coq Require Import ZArith Reals List Lia Lra.
From Verif Require Import MathSpec MathModel MathProofs.
Import ListNotations.
Open Scope R_scope.
Theorem C52_sumlog : forall x y, lns_sumlog x y = ln (exp x + exp y) /\ lns_sumlog x y = lns_sumlog y x.
Proof. intros x y. rewrite !sumlog_ok. split; [reflexivity|f_equal; ring]. Qed.
Print Assumptions C52_sumlog.
Theorem C52_sublog : forall x y, y < x -> lns_sublog x y = ln (exp x - exp y).
Proof. exact sublog_ok. Qed.
Theorem C52_sum_sub : forall x y, 0 < x -> 0 < y -> exp (lns_sum x y) = x + y /\ (y < x -> exp (lns_sub x y) = x - y).
Proof.
  intros x y Hx Hy. unfold lns_sum, lns_sub. rewrite sumlog_ok, !exp_ln by (rewrite ?exp_ln; lra). split; [reflexivity|]. intros H.
  rewrite sublog_ok by (apply ln_increasing; lra). rewrite !exp_ln by (rewrite ?exp_ln; lra). reflexivity.
Qed.
Print Assumptions C52_sum_sub.
(** adding with lns_sumlog and then subtracting with lns_sublog gives the number back *)
Theorem C52_roundtrip : forall x y, lns_sublog (lns_sumlog x y) y = x.
Proof.
  intros x y. rewrite sumlog_ok. pose proof (exp_pos x). pose proof (exp_pos y). rewrite sublog_ok.
  - rewrite exp_ln by lra. replace (exp x + exp y - exp y) with (exp x) by ring. apply ln_exp.
  - rewrite <- (ln_exp y) at 1. apply ln_increasing; lra.
Qed.
Example C52_nonvacuous : exp (lns_sum 2 3) = 5 /\ exp (lns_sub 3 2) = 1.
Proof.
  assert (A : exp (lns_sum 2 3) = 2 + 3) by (apply C52_sum_sub; lra). assert (B : exp (lns_sub 3 2) = 3 - 2) by (apply C52_sum_sub; lra). split; lra.
Qed.

Theorem C59_logFactorial : forall n, exp (logFactorial n) = INR (fact n).
Proof. intros n. rewrite logFactorial_ok. apply exp_ln, INR_fact_lt_0. Qed.
Theorem C59_logCombmn : forall m n, (n <= m)%nat -> exp (logCombmn m n) = INR (binom m n).
Proof. intros m n H. rewrite logCombmn_ok by exact H. apply exp_ln, lt_0_INR, binom_pos, H. Qed.
Theorem C59_logNumbPerms : forall J l, (1 <= l <= J)%nat -> exp (logNumbPermsOfTwoElems J l) = INR (binom J l).
Proof. intros J l H. rewrite numbPerms_ok by exact H. apply exp_ln, lt_0_INR, binom_pos. lia. Qed.
Print Assumptions C59_logNumbPerms.
(** choosing nothing: there is one way, whose logarithm is 0, but 1 is returned *)
Theorem C59_choose_none_refuted : forall J, logNumbPermsOfTwoElems J 0 = 1 /\ ln (INR (binom J 0)) = 0.
Proof. intros J. split; [reflexivity|]. destruct J; cbn; apply ln_1. Qed.
(** the arbitrary-precision versions are exact for all arguments *)
Theorem C59_gmp_exact : forall m n, mp_numbPermsOfTwoElems m n = Z.of_nat (binom m n) /\ ((n <= m)%nat -> mp_logCombmn m n = Z.of_nat (binom m n)).
Proof. intros m n. split; [apply mp_perms_ok|apply mp_comb_ok]. Qed.
Print Assumptions C59_gmp_exact.
Example C59_nonvacuous : binom 10 3 = 120%nat /\ mp_numbPermsOfTwoElems 10 3 = 120%Z /\ mp_numbPermsOfTwoElems 10 7 = 120%Z /\ mp_logCombmn 10 4 = 210%Z.
Proof. repeat split; vm_compute; reflexivity. Qed.

Theorem C60_poisson : forall x l, 0 < l ->
  poisson x l = exp (- l) * (l ^ x / INR (fact x)) /\ poisson_cdf x l = rsum (fun k => poisson k l) (S x) /\ 0 < poisson_cdf x l <= 1 /\ poisson_cdf x l <= poisson_cdf (S x) l /\ log_poisson_cdf x l <= 0.
Proof.
  intros x l H. pose proof (poisson_cdf_bounds x l H) as [B1 B2]. split; [apply poisson_ok, H|]. split; [apply fold_seq_rsum|]. split; [exact B1|]. split; [exact B2|].
  unfold log_poisson_cdf. pose proof (ln_le_minus1 (poisson_cdf x l) ltac:(lra)). lra.
Qed.
Theorem C60_geom : forall p n, 0 < p < 1 -> geom p n = p * (1 - p) ^ n /\ geom_cdf p n = rsum (geom p) (S n) /\ geom_cdf p n = 1 - (1 - p) ^ (S n) /\ 0 < geom_cdf p n < 1.
Proof.
  intros p n H. split; [apply geom_ok, H|]. split; [apply fold_seq_rsum|]. rewrite geom_cdf_ok by exact H. split; [reflexivity|].
  assert (A : 0 < (1 - p) ^ n) by (apply pow_lt; lra). assert (B : (1 - p) ^ n <= 1) by (pose proof (pow_incr (1 - p) 1 n ltac:(lra)) as Q; rewrite pow1 in Q; exact Q). cbn [pow].
  assert (C : 0 < (1 - p) * (1 - p) ^ n) by (apply Rmult_lt_0_compat; lra).
  assert (D : (1 - p) * (1 - p) ^ n <= (1 - p) * 1) by (apply Rmult_le_compat_l; lra). lra.
Qed.
(** on its support the triangular cumulative distribution grows from 0 to 1 *)
Theorem C60_triang : forall a b c x y, a < c < b -> a <= x <= y -> y <= b ->
  0 <= triang_cdf a b c x <= triang_cdf a b c y /\ triang_cdf a b c y <= 1 /\ triang_cdf a b c a = 0 /\ triang_cdf a b c b = 1.
Proof. intros a b c x y H Hx Hy. destruct (triang_mono a b c x y H Hx Hy) as [A B]. destruct (triang_ends a b c H) as [C D]. auto. Qed.
Print Assumptions C60_triang.
(** beyond its support it falls back to 0 *)
Theorem C60_triang_above_refuted : forall a b c x, a < c < b -> b < x -> triang_cdf a b c x = 0 /\ triang_cdf a b c b = 1.
Proof.
  intros a b c x H Hx. split; [|apply triang_ends, H]. unfold triang_cdf. destruct (Rle_dec a x); [|lra]. destruct (Rle_dec x c); [lra|]. destruct (Rle_dec x b); [lra|reflexivity].
Qed.
Theorem C60_logarithmic : forall a b x y, 0 < a -> a < b -> b <= 1 -> a <= x -> x <= y -> y <= b ->
  0 <= logarithmic_cdf a b x <= logarithmic_cdf a b y /\ logarithmic_cdf a b y <= 1 /\ logarithmic_cdf a b a = 0 /\ logarithmic_cdf a b b = 1.
Proof. exact logarithmic_mono. Qed.
Print Assumptions C60_logarithmic.
Example C60_nonvacuous : triang_cdf 0 4 1 1 = 1 / 4 /\ geom_cdf (1 / 2) 1 = 3 / 4 /\ 0 < poisson_cdf 3 2 <= 1.
Proof. split; [rewrite triang_left by lra; field|]. split; [rewrite geom_cdf_ok by lra; cbn; field|]. apply poisson_cdf_bounds. lra. Qed.
