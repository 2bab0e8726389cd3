(** /repo/src/nlp_common/MathFuncs.cc.  Floating point numbers are modelled as real numbers (no rounding, no infinities);
    unsigned loop counters as naturals; GMP integers (mpz_t) as integers Z. *)
From Coq Require Import ZArith Reals List.
Import ListNotations.
Open Scope R_scope.
(** logFactorial :31-39 *)
Definition logFactorial (n : nat) : R := fold_left (fun s i => s + ln (INR i)) (seq 1 n) 0.
(** logCombmn :42-45; m-n is an unsigned subtraction: only meaningful for n<=m *)
Definition logCombmn (m n : nat) : R := logFactorial m - (logFactorial n + logFactorial (m - n)).
(** "for(i=J;i>k;--i)" as a list *)
Definition down (J k : nat) : list nat := rev (seq (S k) (J - k)).
(** logNumbPermsOfTwoElems :48-78 *)
Definition logNumbPermsOfTwoElems (J l : nat) : R :=
  if (l <=? J)%nat then
    if (l =? 0)%nat then 1
    else if (l <? J - l)%nat then fold_left (fun s i => s + ln (INR i)) (down J (J - l)) 0 - logFactorial l
    else fold_left (fun s i => s + ln (INR i)) (down J l) 0 - logFactorial (J - l)
  else 0.
(** mp_factorial :84-92; mpz_cdiv_q rounds up *)
Definition mp_factorial (n : nat) : Z := fold_left (fun s i => (s * Z.of_nat i)%Z) (seq 1 n) 1%Z.
Definition cdiv (a b : Z) : Z := (- ((- a) / b))%Z.
(** mp_logCombmn :95-120 *)
Definition mp_logCombmn (m n : nat) : Z := cdiv (mp_factorial m) (mp_factorial n * mp_factorial (m - n))%Z.
(** mp_numbPermsOfTwoElems :123-168 *)
Definition mp_numbPermsOfTwoElems (m n : nat) : Z :=
  if (n <=? m)%nat then
    if (n =? 0)%nat then 1%Z
    else if (n <? m - n)%nat then cdiv (fold_left (fun s i => (s * Z.of_nat i)%Z) (down m (m - n)) 1%Z) (mp_factorial n)
    else cdiv (fold_left (fun s i => (s * Z.of_nat i)%Z) (down m n) 1%Z) (mp_factorial (m - n))
  else 0%Z.
(** log_poisson :191-199, poisson :185-188, poisson_cdf :202-210, for a whole number x *)
Definition log_poisson (x : nat) (lambda : R) : R := fold_left (fun s i => s - ln (INR i)) (seq 1 x) (- lambda + INR x * ln lambda).
Definition poisson (x : nat) (lambda : R) : R := exp (log_poisson x lambda).
Definition poisson_cdf (x : nat) (lambda : R) : R := fold_left (fun s k => s + poisson k lambda) (seq 0 (S x)) 0.
Definition log_poisson_cdf (x : nat) (lambda : R) : R := ln (poisson_cdf x lambda).
(** logarithmic_cdf :243-246 *)
Definition logarithmic_cdf (a b x : R) : R := (a * (1 - ln a) - x * (1 - ln x)) / (a * (1 - ln a) - b * (1 - ln b)).
(** triang_cdf :255-270 *)
Definition triang_cdf (a b c x : R) : R :=
  if Rle_dec a x then
    if Rle_dec x c then (x - a) * (x - a) / ((b - a) * (c - a))
    else if Rle_dec x b then 1 - (b - x) * (b - x) / ((b - a) * (b - c)) else 0
  else if Rlt_dec c x then if Rle_dec x b then 1 - (b - x) * (b - x) / ((b - a) * (b - c)) else 0 else 0.
(** log_geom :285-290, geom :279-282, geom_cdf :293-301 *)
Definition log_geom (p : R) (n : nat) : R := ln p + INR n * ln (1 - p).
Definition geom (p : R) (n : nat) : R := exp (log_geom p n).
Definition geom_cdf (p : R) (n : nat) : R := fold_left (fun s i => s + geom p i) (seq 0 (S n)) 0.
(** lns_sumlog :316-326, lns_sum :310-313, lns_sublog :335-338, lns_sub :329-332 *)
Definition lns_sumlog (logx logy : R) : R :=
  if Rlt_dec logy logx then logx + ln (1 + exp (logy - logx)) else logy + ln (1 + exp (logx - logy)).
Definition lns_sum (x y : R) : R := lns_sumlog (ln x) (ln y).
Definition lns_sublog (logx logy : R) : R := logx + ln (1 - exp (logy - logx)).
Definition lns_sub (x y : R) : R := lns_sublog (ln x) (ln y).
