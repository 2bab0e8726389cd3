From Coq Require Import Reals List Lra.
From Verif Require Import MathModel MathProofs LogNum.
Open Scope R_scope.
Lemma lgln_pos : forall p, 0 < p -> lgln p = Fin (ln p).
Proof. intros p H. unfold lgln. destruct (Rlt_dec 0 p); [reflexivity|lra]. Qed.
Lemma lgln_zero : lgln 0 = LZ.
Proof. unfold lgln. destruct (Rlt_dec 0 0); [lra|reflexivity]. Qed.
Lemma lgexp_ln : forall p, 0 <= p -> lgexp (lgln p) = p.
Proof.
  intros p H. unfold lgln. destruct (Rlt_dec 0 p) as [A|A]; cbn; [apply exp_ln, A|].
  destruct (Rlt_dec p 0); cbn; lra.
Qed.
Lemma lgexp_nonneg : forall a, 0 <= lgexp a.
Proof. intros [| |r]; cbn; [lra|lra|left; apply exp_pos]. Qed.
Lemma lgsumlog_exp : forall a b, a <> NaN -> b <> NaN -> (a <> LZ \/ b <> LZ) -> lgexp (lgsumlog a b) = lgexp a + lgexp b /\ lgsumlog a b <> NaN /\ lgsumlog a b <> LZ.
Proof.
  intros [| |x] [| |y] Ha Hb Hz; try congruence; cbn; try (split; [lra|split; discriminate]).
  - destruct Hz; congruence.
  - split; [|split; discriminate]. rewrite sumlog_ok, exp_ln; [reflexivity|]. pose proof (exp_pos x). pose proof (exp_pos y). lra.
Qed.
Lemma lgsublog_exp : forall a b, a <> NaN -> b <> NaN -> lgexp b <= lgexp a -> lgexp (lgsublog a b) = lgexp a - lgexp b /\ lgsublog a b <> NaN.
Proof.
  intros [| |x] [| |y] Ha Hb H; try congruence; cbn in *; try (split; [lra|discriminate]).
  - exfalso. pose proof (exp_pos y). lra.
  - destruct (Rlt_dec y x) as [L|L].
    + cbn. split; [|discriminate]. rewrite sublog_ok, exp_ln; [reflexivity| |exact L]. pose proof (exp_increasing _ _ L). lra.
    + destruct (Req_EM_T x y) as [->|N]; [cbn; split; [lra|discriminate]|]. exfalso. assert (x < y) by lra. pose proof (exp_increasing _ _ H0). lra.
Qed.
Lemma lgexp_inj : forall a b, a <> NaN -> b <> NaN -> lgexp a = lgexp b -> a = b.
Proof.
  intros [| |x] [| |y] Ha Hb H; try congruence; cbn in *; try reflexivity.
  - pose proof (exp_pos y). lra.
  - pose proof (exp_pos x). lra.
  - f_equal. now apply exp_inv.
Qed.
Lemma lgneqb_spec : forall a b, a <> NaN -> b <> NaN -> (lgneqb a b = false <-> a = b).
Proof.
  intros [| |x] [| |y] Ha Hb; try congruence; cbn; split; intros H; try congruence; try discriminate.
  - destruct (Req_EM_T x y); [congruence|discriminate].
  - destruct (Req_EM_T x y); [reflexivity|congruence].
Qed.
Lemma lgadd_fin : forall a b, a <> NaN -> b <> NaN -> lgexp (lgadd a b) = lgexp a * lgexp b /\ lgadd a b <> NaN.
Proof. intros [| |x] [| |y] Ha Hb; try congruence; cbn; (split; [try lra; try apply exp_plus|discriminate]). Qed.
Lemma lgsub_fin : forall a b, a <> NaN -> b <> NaN -> b <> LZ -> lgexp (lgsub a b) = lgexp a / lgexp b /\ lgsub a b <> NaN.
Proof.
  intros [| |x] [| |y] Ha Hb Hz; try congruence; cbn; (split; [|discriminate]).
  - unfold Rdiv. lra.
  - unfold Rdiv, Rminus. rewrite exp_plus, exp_Ropp. reflexivity.
Qed.
Lemma lgln_not_nan : forall p, 0 <= p -> lgln p <> NaN.
Proof. intros p H. unfold lgln. destruct (Rlt_dec 0 p); [discriminate|]. destruct (Rlt_dec p 0); [lra|discriminate]. Qed.
