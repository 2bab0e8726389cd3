(** chrF *)
From Coq Require Import Ascii String Arith ZArith QArith List Bool Lia Lqa Permutation.
From Verif Require Import TextSpec TextModel TextProofs PropertiesText VocabSpec BleuSpec BleuModel BleuProofs EvalSpec EvalModel.
Import ListNotations.
Local Open Scope nat_scope.
Lemma loop_value : forall sys ref n, loop_i ascii ascii_dec sys ref n (if length sys <? n then 0 else length sys - n + 1) 0 (repeat false (if length ref <? n then 0 else length ref - n + 1)) 0 = Some (grams n sys ref).
Proof.
  intros sys ref n. pose proof (prec_spec ascii ascii_dec ref sys n) as H. unfold prec_n in H. cbv zeta in H. destruct (loop_i _ _ _ _ _ _ _ _ _) as [p|]; [|discriminate]. injection H as -> _. reflexivity.
Qed.
Lemma grams_sym : forall n s r, grams n s r = grams n r s.
Proof. intros n s r. apply common_sym. Qed.
Lemma grams_le : forall n s r, grams n s r <= length s + 1 - n.
Proof. intros n s r. unfold grams. rewrite <- (ngrams_length ascii n s). apply common_le. Qed.
Lemma count_ok : forall ref sys n, 1 <= n -> count_ngrams ref sys n = Some (share n sys ref, share n ref sys).
Proof.
  intros ref sys n N. unfold count_ngrams. cbv zeta. rewrite (loop_value sys ref), (loop_value ref sys). rewrite (grams_sym n ref sys), Nat.min_id. unfold share. rewrite (grams_sym n ref sys).
  destruct (Nat.ltb_spec (length sys) n), (Nat.ltb_spec (length ref) n); cbn [Nat.eqb]; repeat match goal with |- context [?a - n + 1 =? 0] => destruct (Nat.eqb_spec (a - n + 1) 0); [lia|] end; repeat (f_equal; try lia).
Qed.
Definition tsum (f : nat -> Q) (l : list nat) : Q := fold_right Qplus 0%Q (map f l).
Lemma chrf_sum_ok : forall ref sys ns p r, Forall (fun n => 1 <= n) ns -> exists p' r', chrf_sum ref sys ns p r = Some (p', r') /\ (p' == p + tsum (fun n => share n sys ref) ns)%Q /\ (r' == r + tsum (fun n => share n ref sys) ns)%Q.
Proof.
  intros ref sys. induction ns as [|n ns IH]; intros p r F; [exists p, r; split; [reflexivity|]; unfold tsum; cbn; split; ring|]. inversion F; subst. cbn [chrf_sum]. rewrite count_ok by assumption.
  destruct (IH (p + share n sys ref)%Q (r + share n ref sys)%Q) as (p' & r' & E & P & R); [assumption|]. exists p', r'. split; [exact E|]. unfold tsum in *. cbn [map fold_right]. rewrite P, R. split; ring.
Qed.
Lemma joined_ok : forall s, option_map stringVectorToString (stringToStringVector s) = Some (joined s).
Proof.
  intros s. rewrite C22_tokenize_is_words. cbn [option_map]. f_equal. unfold joined, toks, stringVectorToString. destruct (words blank s) as [|w v]; [reflexivity|]. revert w. induction v as [|x v IH]; intros w; cbn [fold_left map concat]; [now rewrite app_nil_r|]. rewrite IH. now rewrite <- !app_assoc.
Qed.
(** ** arithmetic *)
Lemma nq_pos : forall n, 0 < n -> (0 < nq n)%Q.
Proof. intros n H. change 0%Q with (inject_Z 0). unfold nq. rewrite <- Zlt_Qlt. now apply Nat2Z.inj_lt with (n := 0). Qed.
Lemma nq_le : forall a b, a <= b -> (nq a <= nq b)%Q.
Proof. intros a b H. unfold nq. rewrite <- Zle_Qle. now apply Nat2Z.inj_le. Qed.
Lemma nq_eq : forall a b, (nq a == nq b)%Q -> a = b.
Proof. intros a b H. unfold nq in H. apply (proj1 (inject_Z_injective _ _)) in H. now apply Nat2Z.inj. Qed.
Lemma nq_nonneg : forall a, (0 <= nq a)%Q.
Proof. intros a. apply (nq_le 0 a), Nat.le_0_l. Qed.
Lemma ratio_bounds : forall a b, 0 < b -> a <= b -> (0 <= nq a / nq b)%Q /\ (nq a / nq b <= 1)%Q /\ ((nq a / nq b == 1)%Q -> a = b) /\ ((nq a / nq b == 0)%Q -> a = 0).
Proof.
  intros a b B L. pose proof (nq_pos b B) as PB. pose proof (nq_nonneg a) as NA. pose proof (nq_le a b L) as LE. assert (E : (nq a / nq b * nq b == nq a)%Q) by (field; lra). 
  split; [apply Qle_shift_div_l; lra|]. split; [apply Qle_shift_div_r; lra|]. split; intros H; rewrite H in E; [apply nq_eq; rewrite <- E; ring|]. apply nq_eq. rewrite <- E. unfold nq. cbn. ring.
Qed.
Lemma share_bounds : forall n s r, 1 <= n -> (0 <= share n s r)%Q /\ (share n s r <= 1)%Q.
Proof.
  intros n s r N. unfold share. destruct (Nat.ltb_spec (length s) n); [split; lra|]. destruct (ratio_bounds (grams n s r) (length s + 1 - n)) as (A & B & _); [lia|apply grams_le|]. split; assumption.
Qed.
Lemma tsum_bounds : forall f l b, (forall n, In n l -> (0 <= f n)%Q /\ (f n <= b)%Q) -> (0 <= tsum f l)%Q /\ (tsum f l <= b * nq (length l))%Q /\
  ((tsum f l == b * nq (length l))%Q -> forall n, In n l -> (f n == b)%Q) /\ ((tsum f l == 0)%Q -> forall n, In n l -> (f n == 0)%Q).
Proof.
  intros f l b. unfold tsum. induction l as [|x l IH]; intros H; [cbn [map fold_right length]; assert (Z0q : (nq 0 == 0)%Q) by reflexivity; refine (conj _ (conj _ (conj _ _))); [lra|rewrite Z0q; lra|intros _ n []|intros _ n []]|]. destruct IH as (A & B & C & D); [intros n J; apply H; now right|]. destruct (H x (or_introl eq_refl)) as [X1 X2]. cbn [map fold_right length].
  assert (E : (b * nq (S (length l)) == b + b * nq (length l))%Q) by (unfold nq; rewrite Nat2Z.inj_succ; unfold Z.succ; rewrite inject_Z_plus; unfold inject_Z at 2; ring).
  split; [lra|]. split; [lra|]. split; intros EQ n [<-|J]; [lra|apply C; [lra|exact J]|lra|apply D; [lra|exact J]].
Qed.
Definition fsc (p r : Q) : Q := ((1 + BETA * BETA) * (p * r / (BETA * BETA * p + r)))%Q.
Lemma fsc_ext : forall p q p' q', (p == p')%Q -> (q == q')%Q -> (fsc p q == fsc p' q')%Q.
Proof. intros p q p' q' A B. unfold fsc. rewrite A, B. reflexivity. Qed.
Lemma fsc_eq : forall p r, (0 < p)%Q -> (0 < r)%Q -> (fsc p r * (9 * p + r) == 10 * (p * r))%Q /\ (0 < fsc p r)%Q.
Proof.
  intros p r P R. unfold fsc, BETA. assert (X : (0 < 3 * 3 * p + r)%Q) by lra. split; [field; lra|]. assert (PR : (0 < p * r)%Q) by now apply Qmult_lt_0_compat. assert (Y : (0 < p * r / (3 * 3 * p + r))%Q) by (apply Qlt_shift_div_l; lra). lra.
Qed.
Lemma fsc_le : forall p r, (0 < p)%Q -> (0 < r)%Q -> (p <= 1)%Q -> (r <= 1)%Q -> (fsc p r <= 1)%Q /\ ((fsc p r == 1)%Q -> (p == 1)%Q /\ (r == 1)%Q).
Proof.
  intros p r P R P1 R1. destruct (fsc_eq p r P R) as [E F]. assert (X : (10 * (p * r) <= 9 * p + r)%Q) by nra. split.
  - apply Qnot_lt_le. intros L. assert ((9 * p + r < fsc p r * (9 * p + r))%Q) by nra. lra.
  - intros H. rewrite H in E. assert (A : (p * (1 - r) == 0)%Q) by nra. assert (B : (r * (1 - p) == 0)%Q) by nra. apply Qmult_integral in A. apply Qmult_integral in B. destruct A, B; split; lra.
Qed.
Lemma fsc_lt : forall p r, (0 < p)%Q -> (0 < r)%Q -> (r <= 3 # 4)%Q -> (fsc p r < 1)%Q.
Proof.
  intros p r P R R1. destruct (fsc_eq p r P R) as [E F]. apply Qnot_le_lt. intros L. assert ((9 * p + r <= fsc p r * (9 * p + r))%Q) by nra. assert ((10 * (p * r) <= 10 * (p * (3 # 4)))%Q) by nra. lra.
Qed.
(** ** what is common *)
Lemma occ_in : forall g l, BleuSpec.occ ascii_dec g l <> 0 <-> In g l.
Proof. intros g l. apply (occ_pos ascii ascii_dec). Qed.
Lemma common_pos : forall a b : list str, common ascii_dec a b <> 0 <-> exists g, In g a /\ In g b.
Proof.
  intros a b. unfold common. split.
  - intros H. destruct (existsb (fun g => if in_dec (geqd ascii_dec) g b then true else false) a) eqn:E.
    + apply existsb_exists in E as (g & G1 & G2). exists g. split; [exact G1|]. now destruct (in_dec (geqd ascii_dec) g b).
    + exfalso. apply H. apply (sum_zero ascii). intros g G. apply nodup_In in G. destruct (Nat.eq_dec (BleuSpec.occ ascii_dec g b) 0) as [->|N]; [apply Nat.min_0_r|]. apply occ_in in N.
      assert (X : existsb (fun g => if in_dec (geqd ascii_dec) g b then true else false) a = true) by (apply existsb_exists; exists g; split; [exact G|]; now destruct (in_dec (geqd ascii_dec) g b)). congruence.
  - intros (g & G1 & G2) H. assert (X : forall U, In g U -> sum (map (fun g => Nat.min (BleuSpec.occ ascii_dec g a) (BleuSpec.occ ascii_dec g b)) U) <> 0).
    { induction U as [|x U IH]; intros J; [destruct J|]. cbn [map sum]. destruct J as [->|J]; [|specialize (IH J); lia]. apply occ_in in G1. apply occ_in in G2. lia. }
    apply (X (nodup (geqd ascii_dec) a)); [now apply nodup_In|exact H].
Qed.
Lemma common_full : forall a b : list str, common ascii_dec a b = length a -> forall g, BleuSpec.occ ascii_dec g a <= BleuSpec.occ ascii_dec g b.
Proof.
  intros a b H g. unfold common in H. destruct (in_dec (geqd ascii_dec) g a) as [J|N]; [|destruct (Nat.eq_dec (BleuSpec.occ ascii_dec g a) 0) as [->|X]; [lia|apply occ_in in X; contradiction]].
  assert (H2 : sum (map (fun g => Nat.min (BleuSpec.occ ascii_dec g a) (BleuSpec.occ ascii_dec g b)) (nodup (geqd ascii_dec) a)) = sum (map (fun g => BleuSpec.occ ascii_dec g a) (nodup (geqd ascii_dec) a))) by (etransitivity; [exact H|symmetry; apply (sum_occ ascii ascii_dec); [apply NoDup_nodup|intros x X; now apply nodup_In]]).
  clear H. rename H2 into H. apply (nodup_In (geqd ascii_dec)) in J. revert J H. generalize (nodup (geqd ascii_dec) a) as U.
  assert (LE : forall U, sum (map (fun g => Nat.min (BleuSpec.occ ascii_dec g a) (BleuSpec.occ ascii_dec g b)) U) <= sum (map (fun g => BleuSpec.occ ascii_dec g a) U)) by (induction U; cbn [map sum]; lia).
  induction U as [|x U IH]; intros J H; [destruct J|]. cbn [map sum] in H. specialize (LE U). destruct J as [->|J]; [lia|]. apply IH; [exact J|lia].
Qed.
Lemma in_ngrams : forall n (s : str) g, In g (ngrams n s) -> exists i, i + n <= length s /\ g = firstn n (skipn i s).
Proof.
  intros n s g H. apply In_nth_error in H as [i H]. assert (L : i < length (ngrams n s)) by (apply nth_error_Some; congruence). rewrite ngrams_length in L. exists i. split; [lia|]. rewrite ngrams_nth in H by lia. now injection H as <-.
Qed.
Lemma grams1 : forall s r, grams 1 s r <> 0 <-> exists c, In c s /\ In c r.
Proof.
  assert (A : forall (s : str) c, In [c] (ngrams 1 s) <-> In c s).
  { intros s c. split.
    - intros H. apply in_ngrams in H as (i & L & E). destruct (skipn i s) as [|d t] eqn:K; [discriminate|]. injection E as ->. rewrite <- (firstn_skipn i s), K. apply in_or_app. right. now left.
    - intros H. apply In_nth_error in H as [i H]. assert (L : i < length s) by (apply nth_error_Some; congruence). apply nth_error_In with (n := i). rewrite ngrams_nth by lia. f_equal. apply nth_error_split in H as (l1 & l2 & -> & <-). rewrite skipn_app, skipn_all, Nat.sub_diag. reflexivity. }
  intros s r. unfold grams. rewrite common_pos. split.
  - intros (g & G1 & G2). pose proof (in_ngrams _ _ _ G1) as (i & L & E). destruct (skipn i s) as [|d t] eqn:K; [apply (f_equal (@length ascii)) in K; rewrite skipn_length in K; cbn in K; lia|]. cbn [firstn] in E. subst g. exists d. split; now apply A.
  - intros (c & C1 & C2). exists [c]. split; now apply A.
Qed.
Lemma gramsn : forall n s r, 1 <= n -> grams n s r <> 0 -> grams 1 s r <> 0.
Proof.
  intros n s r N H. apply grams1. apply common_pos in H as (g & G1 & G2). apply in_ngrams in G1 as (i & L1 & E1). apply in_ngrams in G2 as (j & L2 & E2). destruct n as [|n]; [lia|].
  destruct (skipn i s) as [|d t] eqn:K1; [apply (f_equal (@length ascii)) in K1; rewrite skipn_length in K1; cbn in K1; lia|]. destruct (skipn j r) as [|d' t'] eqn:K2; [apply (f_equal (@length ascii)) in K2; rewrite skipn_length in K2; cbn in K2; lia|].
  cbn [firstn] in *. rewrite E1 in E2. injection E2 as <- _. exists d. split; [rewrite <- (firstn_skipn i s), K1|rewrite <- (firstn_skipn j r), K2]; apply in_or_app; right; now left.
Qed.
(** ** the score *)
Definition ms (s : str) : nat := Nat.min 4 (length s).
Lemma chrf_value : forall ref sys, exists x, calculate_chrf ref sys = Some x /\
  let s := joined sys in let r := joined ref in
  (s = [] -> r = [] -> (x == 1)%Q) /\ (s = [] -> r <> [] -> (x == 0)%Q) /\ (s <> [] -> r = [] -> (x == 0)%Q) /\
  (s <> [] -> r <> [] -> let p := mean_share s r (ms r) (ms s) in let q := mean_share r s (ms r) (ms r) in
     ((p == 0)%Q \/ (q == 0)%Q -> (x == 0)%Q) /\ (~ (p == 0)%Q -> ~ (q == 0)%Q -> (x == fsc p q)%Q)).
Proof.
  intros ref sys. unfold calculate_chrf. pose proof (joined_ok ref) as JR. pose proof (joined_ok sys) as JS. destruct (stringToStringVector ref) as [rv|]; [|discriminate]. destruct (stringToStringVector sys) as [sv|]; [|discriminate]. cbn [option_map] in JR, JS. injection JR as JR. injection JS as JS. rewrite JR, JS. cbv zeta. generalize (joined ref) as r, (joined sys) as s. clear. intros r s.
  destruct s as [|cs s']; destruct r as [|cr r'].
  - cbn [length Nat.eqb andb]. eexists. split; [reflexivity|]. repeat split; intros; try congruence; reflexivity.
  - cbn [length Nat.eqb andb orb]. eexists. split; [reflexivity|]. repeat split; intros; try congruence; reflexivity.
  - cbn [length Nat.eqb andb orb]. eexists. split; [reflexivity|]. repeat split; intros; try congruence; reflexivity.
  - remember (cs :: s') as s eqn:ES. remember (cr :: r') as r eqn:ER. assert (LS : 0 < length s) by (rewrite ES; cbn; lia). assert (LR : 0 < length r) by (rewrite ER; cbn; lia). assert (NS : s <> []) by (rewrite ES; discriminate). assert (NR : r <> []) by (rewrite ER; discriminate). clear ES ER.
    destruct (Nat.eqb_spec (length s) 0); [lia|]. destruct (Nat.eqb_spec (length r) 0); [lia|]. cbn [andb orb]. unfold MAX_NGRAM_LENGTH. fold (ms r) (ms s).
    destruct (chrf_sum_ok r s (seq 1 (ms r)) 0 0) as (p' & r0 & E & P & R); [apply Forall_forall; intros k K; apply in_seq in K; lia|]. rewrite E. eexists. split; [reflexivity|]. refine (conj _ (conj _ (conj _ _))); try (intros; congruence). intros _ _.
    assert (P2 : (p' / nq (ms s) == mean_share s r (ms r) (ms s))%Q) by (unfold mean_share; fold (tsum (fun n => share n s r) (seq 1 (ms r))); rewrite P; unfold Qdiv; ring).
    assert (R2 : (r0 / nq (ms r) == mean_share r s (ms r) (ms r))%Q) by (unfold mean_share; fold (tsum (fun n => share n r s) (seq 1 (ms r))); rewrite R; unfold Qdiv; ring).
    destruct (Qeq_bool (p' / nq (ms s)) 0) eqn:B1; cbn [orb].
    + apply Qeq_bool_eq in B1. split; [reflexivity|]. intros N. rewrite <- P2 in N. contradiction.
    + apply Qeq_bool_neq in B1. destruct (Qeq_bool (r0 / nq (ms r)) 0) eqn:B2.
      * apply Qeq_bool_eq in B2. split; [reflexivity|]. intros _ N. rewrite <- R2 in N. contradiction.
      * apply Qeq_bool_neq in B2. split; [intros [N|N]; [rewrite <- P2 in N|rewrite <- R2 in N]; contradiction|]. intros _ _. exact (fsc_ext _ _ _ _ P2 R2).
Qed.
Lemma mean_facts : forall s r, s <> [] -> r <> [] -> let p := mean_share s r (ms r) (ms s) in let q := mean_share r s (ms r) (ms r) in
  (0 <= p)%Q /\ (0 <= q)%Q /\ (q <= 1)%Q /\ ((p == 0)%Q \/ (q == 0)%Q <-> grams 1 s r = 0) /\
  ((length s < ms r) -> (q <= 3 # 4)%Q) /\ (ms r <= length s -> (p <= 1)%Q) /\
  ((q == 1)%Q -> forall n, 1 <= n <= ms r -> grams n s r = length r + 1 - n) /\
  (ms r <= length s -> (p == 1)%Q -> ms s = ms r /\ forall n, 1 <= n <= ms r -> grams n s r = length s + 1 - n).
Proof.
  intros s r NS NR. cbv zeta. assert (LS : 0 < length s) by (destruct s; [contradiction|cbn; lia]). assert (LR : 0 < length r) by (destruct r; [contradiction|cbn; lia]). clear NS NR.
  assert (M : 0 < ms r) by (unfold ms; lia). assert (MS : 0 < ms s) by (unfold ms; lia). pose proof (nq_pos _ M) as QM. pose proof (nq_pos _ MS) as QMS.
  unfold mean_share. fold (tsum (fun n => share n s r) (seq 1 (ms r))) (tsum (fun n => share n r s) (seq 1 (ms r))).
  destruct (tsum_bounds (fun n => share n s r) (seq 1 (ms r)) 1) as (P1 & P2 & P3 & P4); [intros n J; apply in_seq in J; apply share_bounds; lia|].
  destruct (tsum_bounds (fun n => share n r s) (seq 1 (ms r)) 1) as (R1 & R2 & R3 & R4); [intros n J; apply in_seq in J; apply share_bounds; lia|]. rewrite seq_length in *.
  set (tp := tsum (fun n => share n s r) (seq 1 (ms r))) in *. set (tr := tsum (fun n => share n r s) (seq 1 (ms r))) in *.
  assert (EP : (tp / nq (ms s) * nq (ms s) == tp)%Q) by (field; lra). assert (ER : (tr / nq (ms r) * nq (ms r) == tr)%Q) by (field; lra).
  set (p := (tp / nq (ms s))%Q) in *. set (q := (tr / nq (ms r))%Q) in *.
  assert (SH : forall a b n, 1 <= n <= length a -> (share n a b == nq (grams n a b) / nq (length a + 1 - n))%Q) by (intros a b n H; unfold share; destruct (Nat.ltb_spec (length a) n); [lia|reflexivity]).
  assert (Z0 : forall a b, 1 <= length a -> ((share 1 a b == 0)%Q -> grams 1 a b = 0)).
  { intros a b L H. rewrite SH in H by lia. destruct (ratio_bounds (grams 1 a b) (length a + 1 - 1)) as (_ & _ & _ & X); [lia|apply grams_le|]. now apply X. }
  refine (conj _ (conj _ (conj _ (conj _ (conj _ (conj _ (conj _ _))))))).
  - unfold p. apply Qle_shift_div_l; lra.
  - unfold q. apply Qle_shift_div_l; lra.
  - unfold q. apply Qle_shift_div_r; lra.
  - split.
    + intros [H|H].
      * apply Z0; [lia|]. apply P4; [|apply in_seq; lia]. rewrite <- EP, H. ring.
      * rewrite grams_sym. apply Z0; [lia|]. apply R4; [|apply in_seq; lia]. rewrite <- ER, H. ring.
    + intros H. right. assert (X : (tr == 0)%Q); [|unfold q; rewrite X; unfold Qdiv; ring]. assert (Y : (tr <= 0 * nq (ms r))%Q); [|lra]. unfold tr. replace (ms r) with (length (seq 1 (ms r))) at 2 by apply seq_length. apply (tsum_bounds (fun n => share n r s) (seq 1 (ms r)) 0).
      intros n J. apply in_seq in J. assert (G : grams n r s = 0). { destruct (Nat.eq_dec (grams n r s) 0) as [E|E]; [exact E|]. exfalso. apply (gramsn n r s) in E; [|lia]. apply E. now rewrite grams_sym. }
      rewrite SH by (unfold ms in J; lia). rewrite G. unfold Qdiv. split; [|]; unfold nq at 1; cbn [Z.of_nat]; change (inject_Z 0) with 0%Q; rewrite Qmult_0_l; apply Qle_refl.
  - intros H. assert (Y : (tr <= (3 # 4) * nq (ms r))%Q).
    { unfold tr. replace (ms r) with (length (seq 1 (ms r))) at 2 by apply seq_length. apply (tsum_bounds (fun n => share n r s) (seq 1 (ms r)) (3 # 4)). intros n J. apply in_seq in J. split; [apply share_bounds; lia|]. rewrite SH by (unfold ms in *; lia). apply Qle_shift_div_r; [apply nq_pos; unfold ms in *; lia|].
      assert (G : 4 * grams n r s <= 3 * (length r + 1 - n)). { rewrite grams_sym. pose proof (grams_le n s r) as GL. unfold ms in *. lia. }
      apply nq_le in G. unfold nq in *. rewrite !Nat2Z.inj_mul, !inject_Z_mult in G. change (inject_Z (Z.of_nat 4)) with 4%Q in G. change (inject_Z (Z.of_nat 3)) with 3%Q in G. lra. }
    unfold q. apply Qle_shift_div_r; lra.
  - intros H. assert (L : ms r <= ms s) by (unfold ms in *; lia). apply nq_le in L. unfold p. apply Qle_shift_div_r; lra.
  - intros H n J. assert (X : (share n r s == 1)%Q) by (apply R3; [rewrite <- ER, H; ring|apply in_seq; lia]). rewrite SH in X by (unfold ms in J; lia). destruct (ratio_bounds (grams n r s) (length r + 1 - n)) as (_ & _ & Y & _); [unfold ms in J; lia|apply grams_le|]. rewrite grams_sym. now apply Y.
  - intros H EQ. assert (L : ms r <= ms s) by (unfold ms in *; lia). pose proof (nq_le _ _ L) as L2. assert (T : (tp == nq (ms s))%Q) by (rewrite <- EP, EQ; ring). assert (M2 : ms s = ms r) by (apply nq_eq; lra). split; [exact M2|].
    intros n J. assert (X : (share n s r == 1)%Q) by (apply P3; [rewrite T, M2; ring|apply in_seq; lia]). rewrite SH in X by (unfold ms in *; lia). destruct (ratio_bounds (grams n s r) (length s + 1 - n)) as (_ & _ & Y & _); [unfold ms in *; lia|apply grams_le|]. now apply Y.
Qed.
Lemma same_len : forall s r, same_grams s r -> length s = length r.
Proof.
  assert (A : forall s r, same_grams s r -> length s <= length r).
  { intros s r H. pose proof (grams_le 1 r s) as G. rewrite grams_sym in G. assert (E : grams 1 s r = length s); [|lia]. unfold grams. transitivity (length (ngrams 1 s)); [|pose proof (ngrams_length ascii 1 s); unfold str in *; lia]. transitivity (common ascii_dec (ngrams 1 s) (ngrams 1 s)); [|apply common_self]. unfold common. apply (sum_ext ascii). intros g _. rewrite <- (H 1 ltac:(lia) g). reflexivity. }
  intros s r H. apply Nat.le_antisymm; apply A; [exact H|]. intros n N g. symmetry. now apply H.
Qed.
Lemma same_common : forall s r n, same_grams s r -> 1 <= n <= 4 -> grams n s r = length s + 1 - n.
Proof. intros s r n H N. unfold grams. transitivity (length (ngrams n s)); [|apply ngrams_length]. transitivity (common ascii_dec (ngrams n s) (ngrams n s)); [|apply common_self]. unfold common. apply (sum_ext ascii). intros g _. rewrite <- (H n N g). reflexivity. Qed.
Theorem chrf_props : forall ref sys, exists x, calculate_chrf ref sys = Some x /\ (0 <= x)%Q /\ (x <= 1)%Q /\
  ((x == 1)%Q <-> same_grams (joined sys) (joined ref)) /\
  ((x == 0)%Q <-> (joined sys <> [] \/ joined ref <> []) /\ forall c, ~ (In c (joined sys) /\ In c (joined ref))).
Proof.
  intros ref sys. destruct (chrf_value ref sys) as (x & E & V). exists x. split; [exact E|]. clear E. cbv zeta in V. generalize dependent (joined ref). generalize (joined sys). intros s r (V1 & V2 & V3 & V4).
  destruct (list_eq_dec ascii_dec s []) as [ES|NS]; destruct (list_eq_dec ascii_dec r []) as [ER|NR].
  - specialize (V1 ES ER). subst s r. split; [lra|]. split; [lra|]. split; [split; intros _; [intros n N g; reflexivity|exact V1]|]. split; [intros H; lra|]. intros [[H|H] _]; contradiction.
  - specialize (V2 ES NR). split; [lra|]. split; [lra|]. split; split; intros H; [lra| |split; [now right|intros c [C _]; rewrite ES in C; destruct C]|exact V2]. apply same_len in H. rewrite ES in H. destruct r; [contradiction|discriminate].
  - specialize (V3 NS ER). split; [lra|]. split; [lra|]. split; split; intros H; [lra| |split; [now left|intros c [_ C]; rewrite ER in C; destruct C]|exact V3]. apply same_len in H. rewrite ER in H. destruct s; [contradiction|discriminate].
  - specialize (V4 NS NR). destruct V4 as [V5 V6]. destruct (mean_facts s r NS NR) as (P0 & Q0 & Q1 & ZZ & QL & PL & QF & PF). set (p := mean_share s r (ms r) (ms s)) in *. set (q := mean_share r s (ms r) (ms r)) in *.
    assert (CH : grams 1 s r = 0 <-> forall c, ~ (In c s /\ In c r)).
    { split; [intros G c C; apply (proj2 (grams1 s r)); [now exists c|exact G]|]. intros H. destruct (Nat.eq_dec (grams 1 s r) 0) as [G|G]; [exact G|]. apply grams1 in G as (c & C). now apply H in C. }
    destruct (Nat.eq_dec (grams 1 s r) 0) as [G|G].
    + assert (X : (x == 0)%Q) by (apply V5, ZZ, G). split; [lra|]. split; [lra|]. split; split; intros H; [lra| |split; [now left|now apply CH]|exact X]. exfalso. pose proof (same_common s r 1 H ltac:(lia)) as Y. destruct s; [contradiction|cbn [length] in Y; lia].
    + assert (NP : ~ (p == 0)%Q) by (intros H; apply G, ZZ; now left). assert (NQ : ~ (q == 0)%Q) by (intros H; apply G, ZZ; now right). specialize (V6 NP NQ). assert (PP : (0 < p)%Q) by (apply Qle_lteq in P0 as [P0|P0]; [exact P0|exfalso; apply NP; now symmetry]). assert (QP : (0 < q)%Q) by (apply Qle_lteq in Q0 as [Q0|Q0]; [exact Q0|exfalso; apply NQ; now symmetry]).
      destruct (fsc_eq p q PP QP) as [FE FP]. assert (X0 : (0 < x)%Q) by (rewrite V6; exact FP). split; [lra|].
      assert (ZC : (x == 0)%Q <-> (s <> [] \/ r <> []) /\ (forall c, ~ (In c s /\ In c r))) by (split; [intros H; lra|intros [_ H]; exfalso; apply G; now apply CH]).
      destruct (Nat.le_gt_cases (ms r) (length s)) as [L|L].
      * specialize (PL L). destruct (fsc_le p q PP QP PL Q1) as [F1 F2]. split; [now rewrite V6|]. split; [|exact ZC]. split.
        -- intros H. rewrite V6 in H. destruct (F2 H) as [EP EQ]. destruct (PF L EP) as [M PF']. specialize (QF EQ). assert (M1 : 1 <= ms r) by (unfold ms; destruct r; [contradiction|cbn [length]; lia]).
           assert (LEN : length s = length r). { pose proof (PF' 1 ltac:(lia)) as A1. pose proof (QF 1 ltac:(lia)) as A2. lia. }
           intros n N g. destruct (Nat.le_gt_cases n (ms r)) as [LN|LN].
           ++ apply Nat.le_antisymm; apply common_full; [transitivity (length s + 1 - n); [apply PF'; lia|symmetry; apply ngrams_length]|]. transitivity (length r + 1 - n); [rewrite <- LEN; transitivity (grams n s r); [apply (common_sym ascii ascii_dec)|apply PF'; lia]|symmetry; apply ngrams_length].
           ++ assert (ngrams n s = []) as -> by (apply length_zero_iff_nil; rewrite ngrams_length; unfold ms in *; lia). assert (ngrams n r = []) as -> by (apply length_zero_iff_nil; rewrite ngrams_length; unfold ms in *; lia). reflexivity.
        -- intros H. pose proof (same_len _ _ H) as LEN. rewrite V6. assert (MM : ms s = ms r) by (unfold ms; now rewrite LEN). assert (M1 : 1 <= ms r) by (unfold ms; destruct r; [contradiction|cbn [length]; lia]). pose proof (nq_pos _ M1) as QM.
           assert (AL : forall a b, same_grams a b -> length a = length r -> (fold_right Qplus 0 (map (fun n => share n a b) (seq 1 (ms r))) == nq (ms r))%Q).
           { intros a b SG LA. assert (LL : forall l, (forall n, In n l -> 1 <= n <= ms r) -> (fold_right Qplus 0 (map (fun n => share n a b) l) == nq (length l))%Q).
             { induction l as [|n l IH]; intros J; [reflexivity|]. cbn [map fold_right length]. rewrite IH by (intros k K; apply J; now right). pose proof (J n (or_introl eq_refl)) as N. unfold share. destruct (Nat.ltb_spec (length a) n) as [B|B]; [unfold ms in N; lia|]. rewrite (same_common a b n SG) by (unfold ms in N; lia). assert (Y : (0 < nq (length a + 1 - n))%Q) by (apply nq_pos; lia).
               assert (Z1 : (nq (length a + 1 - n) / nq (length a + 1 - n) == 1)%Q) by (field; lra). rewrite Z1. unfold nq. rewrite Nat2Z.inj_succ. unfold Z.succ. rewrite inject_Z_plus. unfold inject_Z at 3. ring. }
             rewrite LL; [now rewrite seq_length|]. intros n J. apply in_seq in J. lia. }
           assert (EP : (p == 1)%Q) by (unfold p, mean_share; rewrite (AL s r H LEN), MM; field; lra). assert (SG' : same_grams r s) by (intros n N g; symmetry; now apply H). assert (EQ : (q == 1)%Q) by (unfold q, mean_share; rewrite (AL r s SG' eq_refl); field; lra).
           rewrite (fsc_ext p q 1 1 EP EQ). reflexivity.
      * specialize (QL L). pose proof (fsc_lt p q PP QP QL) as FL. rewrite <- V6 in FL. split; [lra|]. split; [|exact ZC]. split; intros H; [lra|]. exfalso. apply same_len in H. unfold ms in L. lia.
Qed.
