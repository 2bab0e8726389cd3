From Coq Require Import Ascii String Arith ZArith NArith QArith Qpower Qabs List Bool Lia Lqa.
From Verif Require Import TextSpec TextModel VocabModel VocabProofs PmModel PmText GfmtModel.
Import ListNotations.
Open Scope Z_scope.
(** ** decades *)
Lemma nd_loop_ok : forall f z, 0 < z -> z < 2 ^ Z.of_nat f -> 1 <= nd_loop f z /\ 10 ^ (nd_loop f z - 1) <= z < 10 ^ nd_loop f z.
Proof.
  induction f as [|f IH]; intros z Hz Hf; [cbn in Hf; lia|]. cbn [nd_loop]. destruct (Z.ltb_spec z 10) as [L|L]; [cbn; lia|].
  assert (D : z = 10 * (z / 10) + z mod 10) by (apply Z.div_mod; lia). pose proof (Z.mod_pos_bound z 10 ltac:(lia)) as M.
  assert (P : 0 < z / 10) by (apply Z.div_str_pos; lia). rewrite Nat2Z.inj_succ, Z.pow_succ_r in Hf by lia.
  destruct (IH (z / 10)) as (A & B & C); [exact P|lia|]. split; [lia|]. replace (1 + nd_loop f (z / 10) - 1) with (Z.succ (nd_loop f (z / 10) - 1)) by lia.
  replace (1 + nd_loop f (z / 10)) with (Z.succ (nd_loop f (z / 10))) by lia. rewrite !Z.pow_succ_r by lia. lia.
Qed.
Lemma ndigits_ok : forall z, 0 < z -> 1 <= ndigits z /\ 10 ^ (ndigits z - 1) <= z < 10 ^ ndigits z.
Proof. intros z Hz. apply nd_loop_ok; [exact Hz|]. rewrite Nat2Z.inj_succ, Z2Nat.id by apply Z.log2_nonneg. apply Z.log2_spec, Hz. Qed.
Open Scope Q_scope.
Lemma ten0 : ~ 10 == 0. Proof. discriminate. Qed.
Lemma p10 : forall k, 0 < 10 ^ k. Proof. intros. apply Qpower_0_lt. reflexivity. Qed.
Lemma p10Z : forall k, (0 <= k)%Z -> inject_Z (10 ^ k) == 10 ^ k.
Proof. intros k H. rewrite <- (Zpower_Qpower 10 k H). reflexivity. Qed.
Lemma p10S : forall k, 10 ^ (k + 1) == 10 * 10 ^ k.
Proof. intros k. rewrite Qpower_plus by apply ten0. change (10 ^ 1) with 10. ring. Qed.
Lemma p10sub : forall a b, 10 ^ (a - b) == 10 ^ a * / 10 ^ b.
Proof. intros a b. unfold Z.sub. rewrite Qpower_plus by apply ten0. rewrite Qpower_opp. reflexivity. Qed.
Lemma decade_ok : forall x, 0 < x -> 10 ^ decade x <= x < 10 ^ (decade x + 1).
Proof.
  intros x Hx. unfold decade. set (p := Qnum x). set (q := Z.pos (Qden x)).
  assert (Hp : (0 < p)%Z) by (unfold Qlt in Hx; cbn in Hx; unfold p; lia).
  destruct (ndigits_ok p Hp) as (A0 & A1 & A2). destruct (ndigits_ok q ltac:(reflexivity)) as (B0 & B1 & B2). set (np := ndigits p) in *. set (nq := ndigits q) in *.
  assert (Ex : x == inject_Z p * / inject_Z q). { unfold Qeq, p, q. cbn. lia. }
  assert (Q0 : 0 < inject_Z q) by reflexivity.
  assert (P1 : 10 ^ (np - 1) <= inject_Z p) by (rewrite <- p10Z by lia; rewrite <- Zle_Qle; exact A1).
  assert (P2 : inject_Z p < 10 ^ np) by (rewrite <- p10Z by lia; rewrite <- Zlt_Qlt; exact A2).
  assert (Q1 : 10 ^ (nq - 1) <= inject_Z q) by (rewrite <- p10Z by lia; rewrite <- Zle_Qle; exact B1).
  assert (Q2 : inject_Z q < 10 ^ nq) by (rewrite <- p10Z by lia; rewrite <- Zlt_Qlt; exact B2).
  assert (Mul : x * inject_Z q == inject_Z p). { rewrite Ex. field. intros Z0. rewrite Z0 in Q0. discriminate. }
  assert (LO : 10 ^ (np - nq - 1) < x).
  { apply Qmult_lt_r with (inject_Z q); [exact Q0|]. rewrite Mul. apply Qlt_le_trans with (10 ^ (np - nq - 1) * 10 ^ nq).
    - apply Qmult_lt_l; [apply p10|exact Q2].
    - rewrite <- Qpower_plus by apply ten0. replace (np - nq - 1 + nq)%Z with (np - 1)%Z by lia. exact P1. }
  assert (HI : x < 10 ^ (np - nq + 1)).
  { apply Qmult_lt_r with (inject_Z q); [exact Q0|]. rewrite Mul. apply Qlt_le_trans with (10 ^ np); [exact P2|]. apply Qle_trans with (10 ^ (np - nq + 1) * 10 ^ (nq - 1)).
    - rewrite <- Qpower_plus by apply ten0. replace (np - nq + 1 + (nq - 1))%Z with np by lia. apply Qle_refl.
    - apply Qmult_le_l; [apply p10|exact Q1]. }
  destruct (Qle_bool (10 ^ (np - nq)) x) eqn:E.
  - apply Qle_bool_iff in E. auto.
  - assert (~ 10 ^ (np - nq) <= x) as L by (intros L; apply Qle_bool_iff in L; congruence). apply Qnot_le_lt in L. replace (np - nq - 1 + 1)%Z with (np - nq)%Z by lia. split; [apply Qlt_le_weak, LO|exact L].
Qed.
Lemma decade_unique : forall x X, 10 ^ X <= x < 10 ^ (X + 1) -> decade x = X.
Proof.
  intros x X [A B]. assert (Hx : 0 < x) by (eapply Qlt_le_trans; [apply (p10 X)|exact A]). destruct (decade_ok x Hx) as [C D].
  assert (10 ^ X < 10 ^ (decade x + 1)) as E by (eapply Qle_lt_trans; eassumption). assert (10 ^ (decade x) < 10 ^ (X + 1)) as F by (eapply Qle_lt_trans; eassumption).
  apply Qpower_lt_compat_l_inv in E; [|reflexivity]. apply Qpower_lt_compat_l_inv in F; [|reflexivity]. lia.
Qed.
(** ** rounding *)
Lemma rnd_near : forall y, Qabs (inject_Z (rnd_even y) - y) <= 1 # 2.
Proof.
  intros [n d]. unfold rnd_even. cbn [Qnum Qden]. pose proof (Z.div_mod n (Z.pos d) ltac:(discriminate)) as DM. pose proof (Z.mod_pos_bound n (Z.pos d) ltac:(reflexivity)) as M.
  set (q := (n / Z.pos d)%Z) in *. set (r := (n mod Z.pos d)%Z) in *.
  assert (X : forall z, (- Z.pos d <= 2 * (z * Z.pos d - n) <= Z.pos d)%Z -> Qabs (inject_Z z - (n # d)) <= 1 # 2).
  { intros z H. apply Qabs_Qle_condition. unfold Qle, Qminus, Qplus, Qopp, inject_Z. cbn. split; lia. }
  destruct (Z.compare_spec (2 * r) (Z.pos d)) as [E|E|E]; [destruct (Z.even q)| |]; apply X; lia.
Qed.
Lemma rnd_int : forall y z, y == inject_Z z -> rnd_even y = z.
Proof.
  intros [n d] z E. unfold Qeq in E. cbn in E. rewrite Z.mul_1_r in E. unfold rnd_even. cbn [Qnum Qden]. subst n. rewrite Z.div_mul by discriminate. rewrite Z.mod_mul by discriminate. reflexivity.
Qed.
Definition six (m : Z) : Prop := (100000 <= m < 1000000)%Z.
Lemma rnd_range : forall y, 100000 <= y < 1000000 -> (100000 <= rnd_even y <= 1000000)%Z.
Proof.
  intros y [A B]. pose proof (rnd_near y) as N. apply Qabs_Qle_condition in N. destruct N as [N1 N2].
  assert (inject_Z 99999 < inject_Z (rnd_even y)) as L by (change (inject_Z 99999) with 99999; lra). assert (inject_Z (rnd_even y) < inject_Z 1000001) as H by (change (inject_Z 1000001) with 1000001; lra).
  rewrite <- Zlt_Qlt in L, H. lia.
Qed.
Lemma scaled_range : forall x, 0 < x -> 100000 <= x * 10 ^ (5 - decade x) < 1000000.
Proof.
  intros x Hx. destruct (decade_ok x Hx) as [A B]. assert (P := p10 (5 - decade x)). split.
  - change 100000 with (10 ^ 5). replace 5%Z with (decade x + (5 - decade x))%Z at 1 by lia. rewrite Qpower_plus by apply ten0. apply Qmult_le_r; assumption.
  - change 1000000 with (10 ^ 6). replace 6%Z with (decade x + 1 + (5 - decade x))%Z by lia. rewrite (Qpower_plus 10 (decade x + 1)) by apply ten0. apply Qmult_lt_r; assumption.
Qed.
Theorem round6_ok : forall x, 0 < x -> let (m, X) := round6 x in six m /\ Qabs (inject_Z m * 10 ^ (X - 5) - x) <= (5 # 1000000) * x.
Proof.
  intros x Hx. unfold round6. pose proof (scaled_range x Hx) as SR. pose proof (rnd_range _ SR) as RR. pose proof (rnd_near (x * 10 ^ (5 - decade x))) as RN. destruct (decade_ok x Hx) as [DL _].
  set (m := rnd_even (x * 10 ^ (5 - decade x))) in *. set (X := decade x) in *.
  assert (INV : 10 ^ (5 - X) * 10 ^ (X - 5) == 1). { rewrite <- Qpower_plus by apply ten0. replace (5 - X + (X - 5))%Z with 0%Z by lia. reflexivity. }
  assert (ERR : Qabs (inject_Z m * 10 ^ (X - 5) - x) <= (5 # 1000000) * x).
  { assert (EQ : inject_Z m * 10 ^ (X - 5) - x == (inject_Z m - x * 10 ^ (5 - X)) * 10 ^ (X - 5)).
    { transitivity (inject_Z m * 10 ^ (X - 5) - x * (10 ^ (5 - X) * 10 ^ (X - 5))); [rewrite INV; ring|ring]. }
    rewrite EQ, Qabs_Qmult, (Qabs_pos (10 ^ (X - 5))) by apply Qlt_le_weak, p10. apply Qle_trans with ((1 # 2) * 10 ^ (X - 5)); [apply Qmult_le_compat_r; [exact RN|apply Qlt_le_weak, p10]|].
    assert (E5 : 10 ^ X == 100000 * 10 ^ (X - 5)). { change 100000 with (10 ^ 5). rewrite <- Qpower_plus by apply ten0. replace (5 + (X - 5))%Z with X by lia. reflexivity. }
    rewrite E5 in DL. pose proof (p10 (X - 5)). lra. }
  destruct (Z.eqb_spec m 1000000) as [E|E]; [|split; [unfold six; lia|exact ERR]].
  split; [unfold six; lia|]. rewrite E in ERR. replace (X + 1 - 5)%Z with (X - 5 + 1)%Z by lia. rewrite p10S. assert (Q : inject_Z 100000 * (10 * 10 ^ (X - 5)) == inject_Z 1000000 * 10 ^ (X - 5)). { change (inject_Z 1000000) with 1000000. change (inject_Z 100000) with 100000. ring. }
  rewrite Q. exact ERR.
Qed.
Theorem round6_exact : forall x m X, six m -> x == inject_Z m * 10 ^ (X - 5) -> round6 x = (m, X).
Proof.
  intros x m X Hm E. assert (P := p10 (X - 5)). assert (DX : decade x = X).
  { apply decade_unique. assert (E5 : 10 ^ X == 100000 * 10 ^ (X - 5)). { change 100000 with (10 ^ 5). rewrite <- Qpower_plus by apply ten0. replace (5 + (X - 5))%Z with X by lia. reflexivity. }
    rewrite p10S, E5, E. destruct Hm as [M1 M2]. rewrite Zle_Qle in M1. rewrite Zlt_Qlt in M2. change (inject_Z 100000) with 100000 in M1. change (inject_Z 1000000) with 1000000 in M2. split; nra. }
  unfold round6. rewrite DX. assert (R : rnd_even (x * 10 ^ (5 - X)) = m).
  { apply rnd_int. rewrite E. rewrite <- Qmult_assoc, <- Qpower_plus by apply ten0. replace (X - 5 + (5 - X))%Z with 0%Z by lia. cbn. ring. }
  rewrite R. unfold six in Hm. destruct (Z.eqb_spec m 1000000); [lia|reflexivity].
Qed.
