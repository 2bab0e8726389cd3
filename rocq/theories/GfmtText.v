From Coq Require Import Ascii String Arith ZArith NArith QArith Qpower Qabs List Bool Lia Lqa.
From Verif Require Import TextSpec TextModel VocabModel VocabProofs PmModel PmText GfmtModel GfmtProofs WgfSpec.
Import ListNotations.
Open Scope Z_scope.
Definition dchar (c : ascii) : Prop := exists d, (d < 10)%nat /\ c = digit d.
Lemma digits_app : forall a b v, Forall dchar a -> digits (a ++ b) v = digits b (digits a v).
Proof. induction a as [|c a IH]; intros b v F; [reflexivity|]. inversion F as [|? ? (d & Hd & ->) F']; subst. cbn [app digits]. rewrite dval_digit by exact Hd. apply IH, F'. Qed.
Lemma digits_zeros : forall k v, (digits (repeat "0"%char k) v = v * 10 ^ N.of_nat k)%N.
Proof.
  induction k as [|k IH]; intros v; [cbn; lia|]. cbn [repeat digits]. change (dval "0"%char) with (Some 0%nat). cbn iota. rewrite IH. rewrite Nat2N.inj_succ, N.pow_succ_r'. change (N.of_nat 0) with 0%N. lia.
Qed.
Lemma zeros_dchar : forall k, Forall dchar (repeat "0"%char k).
Proof. induction k; constructor; auto. exists 0%nat. split; [lia|reflexivity]. Qed.
Lemma drop0_spec : forall l, exists k, l = repeat "0"%char k ++ drop0 l.
Proof.
  induction l as [|c l [k IH]]; [exists 0%nat; reflexivity|]. cbn [drop0]. destruct (Ascii.eqb_spec c "0"%char) as [->|]; [|exists 0%nat; reflexivity]. exists (Datatypes.S k). cbn. now rewrite <- IH.
Qed.
Lemma rev_repeat : forall k (c : ascii), rev (repeat c k) = repeat c k.
Proof. induction k; intros; [reflexivity|]. cbn [repeat rev]. rewrite IHk. rewrite repeat_cons. reflexivity. Qed.
Lemma strip0_spec : forall l, exists k, l = strip0 l ++ repeat "0"%char k.
Proof. intros l. destruct (drop0_spec (rev l)) as [k E]. exists k. unfold strip0. rewrite <- (rev_involutive l) at 1. rewrite E at 1. rewrite rev_app_distr, rev_repeat. reflexivity. Qed.
Lemma strip0_dchar : forall l, Forall dchar l -> Forall dchar (strip0 l).
Proof. intros l F. destruct (strip0_spec l) as [k E]. rewrite E in F. apply Forall_app in F. apply F. Qed.
Open Scope Q_scope.
Definition dig (l : str) : Q := inject_Z (Z.of_N (digits l 0)).
Lemma p10N : forall k, inject_Z (Z.of_N (10 ^ N.of_nat k)) == 10 ^ Z.of_nat k.
Proof. intros k. rewrite N2Z.inj_pow. change (Z.of_N 10) with 10%Z. rewrite nat_N_Z. apply p10Z. lia. Qed.
Lemma dig_zeros : forall a k, Forall dchar a -> dig (a ++ repeat "0"%char k) == dig a * 10 ^ Z.of_nat k.
Proof. intros a k F. unfold dig. rewrite digits_app by exact F. rewrite digits_zeros, N2Z.inj_mul, inject_Z_mult, p10N. reflexivity. Qed.
(** dropping trailing zeros of the fraction keeps the value *)
Lemma strip_value : forall ip f E, Forall dchar ip -> Forall dchar f -> dig (ip ++ strip0 f) * 10 ^ (E - Z.of_nat (length (strip0 f))) == dig (ip ++ f) * 10 ^ (E - Z.of_nat (length f)).
Proof.
  intros ip f E Fi Ff. pose proof (strip0_dchar f Ff) as Fs. destruct (strip0_spec f) as [k Ef]. set (s := strip0 f) in *. rewrite Ef. rewrite app_length, repeat_length, app_assoc.
  rewrite dig_zeros by (apply Forall_app; auto). rewrite <- Qmult_assoc, <- Qpower_plus by apply ten0. replace (Z.of_nat k + (E - Z.of_nat (length s + k)))%Z with (E - Z.of_nat (length s))%Z by lia. reflexivity.
Qed.
Lemma dchar_sign : forall d, (d < 10)%nat -> Ascii.eqb (digit d) "-"%char = false /\ Ascii.eqb (digit d) "+"%char = false.
Proof. intros d Hd. do 10 (destruct d as [|d]; [split; reflexivity|]). lia. Qed.
Lemma sign_digits : forall l r, Forall dchar l -> l <> [] -> sign_of (l ++ r) = (false, l ++ r).
Proof. intros [|c l] r F N; [contradiction|]. inversion F as [|? ? (d & Hd & ->) _]; subst. cbn [app sign_of]. destruct (dchar_sign d Hd) as [-> ->]. reflexivity. Qed.
Definition extext (ex : option Z) : str :=
  match ex with None => [] | Some X => "e"%char :: (if (X <? 0)%Z then "-"%char else "+"%char) :: exp_digits (Z.to_nat (Z.abs X)) end.
Definition exval (ex : option Z) : Z := match ex with None => 0%Z | Some X => X end.
Lemma ds_val : forall n, let ds := exp_digits n in Forall dchar ds /\ digits ds 0 = N.of_nat n /\ ds <> [].
Proof.
  intros n. pose proof (dec_shape n) as F. pose proof (dec_ne n) as NE. pose proof (digits_dec_aux (Datatypes.S n) n [] ltac:(lia)) as D. fold (dec n) in D. cbn [digits] in D. cbn zeta. unfold exp_digits.
  destruct (dec n) as [|c [|c' r]] eqn:E; [contradiction| |].
  - split; [constructor; [exists 0%nat; split; [lia|reflexivity]|exact F]|]. split; [|discriminate]. rewrite <- D. reflexivity.
  - split; [exact F|]. split; [exact D|discriminate].
Qed.
Lemma exponent_text : forall ex, exponent_of (extext ex) = exval ex.
Proof.
  intros [X|]; [|reflexivity]. cbn [extext exval exponent_of]. change (Ascii.eqb "e" "e" || Ascii.eqb "e" "E")%char with true. cbn iota. destruct (ds_val (Z.to_nat (Z.abs X))) as (F & V & NE).
  set (ds := exp_digits (Z.to_nat (Z.abs X))) in *.
  assert (SD : split_digits ds = (ds, [])). { rewrite <- (app_nil_r ds) at 1. apply split_digits_ok; [exact F|exact Logic.I]. }
  destruct (Z.ltb_spec X 0) as [L|L]; cbn [sign_of]; [change (Ascii.eqb "-" "-")%char with true|change (Ascii.eqb "+" "-")%char with false; change (Ascii.eqb "+" "+")%char with true]; cbn iota; rewrite SD, V; lia.
Qed.
Lemma extext_head : forall ex, match extext ex with [] => True | c :: _ => dval c = None /\ Ascii.eqb c "."%char = false end.
Proof. intros [X|]; [split; reflexivity|exact Logic.I]. Qed.
Lemma atofq_text : forall (neg : bool) ip fp ex, Forall dchar ip -> ip <> [] -> Forall dchar fp ->
  exists y, atofq ((if neg then ["-"%char] else []) ++ ip ++ frac fp ++ extext ex) = Some y /\
    y == (if neg then - (dig (ip ++ fp) * 10 ^ (exval ex - Z.of_nat (length fp))) else dig (ip ++ fp) * 10 ^ (exval ex - Z.of_nat (length fp))).
Proof.
  intros neg ip fp ex Fi Ni Ff. pose proof (extext_head ex) as EH. pose proof (exponent_text ex) as EX.
  assert (SG : sign_of ((if neg then ["-"%char] else []) ++ ip ++ frac fp ++ extext ex) = (neg, ip ++ frac fp ++ extext ex)) by (destruct neg; [reflexivity|apply (sign_digits ip (frac fp ++ extext ex)); auto]).
  unfold atofq. rewrite SG. assert (S1 : split_digits (ip ++ frac fp ++ extext ex) = (ip, frac fp ++ extext ex)).
  { apply split_digits_ok; [exact Fi|]. destruct fp; cbn [frac app]; [destruct (extext ex); [exact Logic.I|apply EH]|reflexivity]. }
  rewrite S1. assert (S2 : frac_of (frac fp ++ extext ex) = (fp, extext ex)).
  { unfold frac_of. destruct fp as [|c fp]; cbn [frac app]; [destruct (extext ex) as [|c r]; [reflexivity|]; destruct EH as [_ ->]; reflexivity|]. change (Ascii.eqb "." ".")%char with true. cbn iota.
    apply (split_digits_ok (c :: fp)); [exact Ff|]. destruct (extext ex); [exact Logic.I|apply EH]. }
  rewrite S2. destruct (ip ++ fp) as [|c l] eqn:E; [destruct ip; [contradiction|discriminate]|]. rewrite <- E. eexists. split; [reflexivity|]. rewrite Qred_correct, EX. unfold dig. destruct neg; reflexivity.
Qed.
Lemma sixdigits_dchar : forall m, Forall dchar (sixdigits m).
Proof.
  intros m. unfold sixdigits. apply Forall_map. apply Forall_forall. intros k _. exists (Z.to_nat (m / 10 ^ k mod 10)). split; [|reflexivity]. pose proof (Z.mod_pos_bound (m / 10 ^ k) 10 ltac:(lia)). lia.
Qed.
Lemma sixdigits_val : forall m, six m -> digits (sixdigits m) 0 = Z.to_N m.
Proof.
  intros m [M1 M2]. unfold sixdigits. cbn [map digits].
  assert (D : forall k, dval (digit (Z.to_nat (m / 10 ^ k mod 10))) = Some (Z.to_nat (m / 10 ^ k mod 10))). { intros k. apply dval_digit. pose proof (Z.mod_pos_bound (m / 10 ^ k) 10 ltac:(lia)). lia. }
  rewrite !D. apply N2Z.inj. rewrite !N2Z.inj_add, !N2Z.inj_mul, !N2Z.inj_add. rewrite !N2Z.inj_mul, !N2Z.inj_add, !N2Z.inj_mul, !N2Z.inj_add, !N2Z.inj_mul, !N2Z.inj_add, !N2Z.inj_mul, ?N2Z.inj_add, ?N2Z.inj_mul. rewrite !nat_N_Z.
  assert (B : forall k, (0 <= m / 10 ^ k mod 10)%Z) by (intros; apply Z.mod_pos_bound; lia). rewrite !Z2Nat.id by apply B. rewrite Z2N.id by lia. change (Z.of_N 10) with 10%Z. change (Z.of_N 0) with 0%Z.
  change (10 ^ 5)%Z with 100000%Z. change (10 ^ 4)%Z with 10000%Z. change (10 ^ 3)%Z with 1000%Z. change (10 ^ 2)%Z with 100%Z. change (10 ^ 1)%Z with 10%Z. change (10 ^ 0)%Z with 1%Z.
  Z.div_mod_to_equations. lia.
Qed.
Lemma dig_six : forall m, six m -> dig (sixdigits m) == inject_Z m.
Proof. intros m H. unfold dig. rewrite sixdigits_val by exact H. rewrite Z2N.id by (unfold six in H; lia). reflexivity. Qed.
(** the text of m*10^(X-5) reads as that number *)
Lemma render_parse : forall (neg : bool) m X, six m -> exists y, atofq ((if neg then ["-"%char] else []) ++ render m X) = Some y /\
  y == (if neg then - (inject_Z m * 10 ^ (X - 5)) else inject_Z m * 10 ^ (X - 5)).
Proof.
  intros neg m X Hm. unfold render. pose proof (sixdigits_dchar m) as FD. pose proof (dig_six m Hm) as DV. assert (LD : length (sixdigits m) = 6%nat) by reflexivity. set (D := sixdigits m) in *.
  assert (GEN : forall n ex, (1 <= n <= 6)%nat -> exists y, atofq ((if neg then ["-"%char] else []) ++ firstn n D ++ frac (strip0 (skipn n D)) ++ extext ex) = Some y /\
     y == (if neg then - (inject_Z m * 10 ^ (exval ex - Z.of_nat (6 - n))) else inject_Z m * 10 ^ (exval ex - Z.of_nat (6 - n)))).
  { intros n ex Hn. assert (F1 : Forall dchar (firstn n D)) by (rewrite <- (firstn_skipn n D) in FD; apply Forall_app in FD; apply FD). assert (F2 : Forall dchar (skipn n D)) by (rewrite <- (firstn_skipn n D) in FD; apply Forall_app in FD; apply FD).
    assert (N1 : firstn n D <> []). { intros E. apply (f_equal (@length ascii)) in E. rewrite firstn_length, LD in E. cbn [length] in E. lia. }
    destruct (atofq_text neg (firstn n D) (strip0 (skipn n D)) ex F1 N1 (strip0_dchar _ F2)) as (y & E & V). exists y. split; [exact E|]. rewrite V.
    assert (Q : dig (firstn n D ++ strip0 (skipn n D)) * 10 ^ (exval ex - Z.of_nat (length (strip0 (skipn n D)))) == inject_Z m * 10 ^ (exval ex - Z.of_nat (6 - n))).
    { rewrite (strip_value (firstn n D) (skipn n D) (exval ex) F1 F2). rewrite firstn_skipn, DV, skipn_length, LD. reflexivity. }
    destruct neg; rewrite Q; reflexivity. }
  destruct ((-4 <=? X) && (X <? 6))%Z eqn:R.
  - apply andb_true_iff in R. destruct R as [R1 R2]. apply Z.leb_le in R1. apply Z.ltb_lt in R2. destruct (Z.leb_spec 0 X) as [P|P].
    + destruct (GEN (Z.to_nat (X + 1)) None ltac:(lia)) as (y & E & V). cbn [extext exval] in E, V. rewrite app_nil_r in E. exists y. split; [exact E|]. rewrite V. replace (0 - Z.of_nat (6 - Z.to_nat (X + 1)))%Z with (X - 5)%Z by lia. reflexivity.
    + set (z := Z.to_nat (- X - 1)). assert (FZ : Forall dchar (repeat "0"%char z ++ strip0 D)) by (apply Forall_app; split; [apply zeros_dchar|apply strip0_dchar, FD]).
      destruct (atofq_text neg ["0"%char] (repeat "0"%char z ++ strip0 D) None) as (y & E & V); [constructor; [exists 0%nat; split; [lia|reflexivity]|constructor]|discriminate|exact FZ|].
      cbn [extext exval] in E, V. rewrite app_nil_r in E.
      assert (NE : strip0 D <> []).
      { intros Q. destruct (strip0_spec D) as [k Ek]. rewrite Q in Ek. cbn [app] in Ek. assert (W : dig D == 0) by (rewrite Ek; unfold dig; rewrite digits_zeros; reflexivity). rewrite DV in W. unfold six in Hm. unfold Qeq in W. cbn in W. lia. }
      exists y. split.
      * assert (FR : frac (repeat "0"%char z ++ strip0 D) = "."%char :: repeat "0"%char z ++ strip0 D) by (destruct (repeat "0"%char z ++ strip0 D) as [|c l] eqn:Q; [apply app_eq_nil in Q; tauto|reflexivity]). rewrite FR in E. exact E.
      * rewrite V. assert (Q : dig (["0"%char] ++ repeat "0"%char z ++ strip0 D) * 10 ^ (0 - Z.of_nat (length (repeat "0"%char z ++ strip0 D))) == inject_Z m * 10 ^ (X - 5)).
        { assert (DZ : dig (["0"%char] ++ repeat "0"%char z ++ strip0 D) = dig (strip0 D)). { unfold dig. cbn [app digits]. change (dval "0"%char) with (Some 0%nat). cbn iota. rewrite digits_app by apply zeros_dchar. rewrite digits_zeros. reflexivity. }
          rewrite DZ, app_length, repeat_length. replace (0 - Z.of_nat (z + length (strip0 D)))%Z with (- Z.of_nat z - Z.of_nat (length (strip0 D)))%Z by lia.
          pose proof (strip_value [] D (- Z.of_nat z) (Forall_nil _) FD) as SV. cbn [app] in SV. rewrite SV, DV, LD. replace (- Z.of_nat z - Z.of_nat 6)%Z with (X - 5)%Z by (unfold z; lia). reflexivity. }
        destruct neg; rewrite Q; reflexivity.
  - destruct (GEN 1%nat (Some X) ltac:(lia)) as (y & E & V). cbn [extext exval] in E, V. exists y. split; [exact E|]. rewrite V. replace (X - Z.of_nat (6 - 1))%Z with (X - 5)%Z by lia. reflexivity.
Qed.
Definition shown (x : Q) : Q := if (Qnum x =? 0)%Z then 0 else let (m, X) := round6 (Qabs x) in if (Qnum x <? 0)%Z then - (inject_Z m * 10 ^ (X - 5)) else inject_Z m * 10 ^ (X - 5).
Lemma norm6 : forall m, (0 < m < 1000000)%Z -> exists k m', (0 <= k)%Z /\ six m' /\ (m' = m * 10 ^ k)%Z.
Proof.
  intros m H. destruct (ndigits_ok m ltac:(lia)) as (A & B & C). exists (6 - ndigits m)%Z, (m * 10 ^ (6 - ndigits m))%Z.
  assert (N6 : (ndigits m <= 6)%Z). { destruct (Z.le_gt_cases (ndigits m) 6); auto. assert ((10 ^ 6 <= 10 ^ (ndigits m - 1))%Z) by (apply Z.pow_le_mono_r; lia). lia. }
  assert (P : (0 < 10 ^ (6 - ndigits m))%Z) by (apply Z.pow_pos_nonneg; lia). split; [lia|]. split; [|reflexivity]. unfold six. split.
  - change 100000%Z with (10 ^ 5)%Z. replace 5%Z with (ndigits m - 1 + (6 - ndigits m))%Z by lia. rewrite Z.pow_add_r by lia. apply Z.mul_le_mono_nonneg_r; lia.
  - change 1000000%Z with (10 ^ 6)%Z. replace 6%Z with (ndigits m + (6 - ndigits m))%Z at 2 by lia. rewrite Z.pow_add_r by lia. apply Z.mul_lt_mono_pos_r; lia.
Qed.
Theorem fmt_parse : forall x, exists y, atofq (fmt_g x) = Some y /\ y == shown x.
Proof.
  intros x. unfold fmt_g, shown. destruct (Z.eqb_spec (Qnum x) 0) as [E|E]; [exists 0; split; reflexivity|].
  assert (P : 0 < Qabs x). { destruct x as [n d]. unfold Qlt. cbn in *. lia. } pose proof (round6_ok (Qabs x) P) as R. destruct (round6 (Qabs x)) as [m X]. destruct R as [Hm _]. apply render_parse, Hm.
Qed.
Lemma abs_cases : forall x, Qnum x <> 0%Z -> 0 < Qabs x /\ x == (if (Qnum x <? 0)%Z then - Qabs x else Qabs x).
Proof. intros [n d] H. cbn in *. split; [unfold Qlt; cbn; lia|]. destruct (Z.ltb_spec n 0); unfold Qeq; cbn; lia. Qed.
Theorem shown_near : forall x, Qabs (shown x - x) <= (5 # 1000000) * Qabs x.
Proof.
  intros x. unfold shown. destruct (Z.eqb_spec (Qnum x) 0) as [E|E].
  - assert (x == 0) as -> by (unfold Qeq; cbn; lia). discriminate.
  - destruct (abs_cases x E) as [P A]. pose proof (round6_ok (Qabs x) P) as R. destruct (round6 (Qabs x)) as [m X]. destruct R as [_ R]. destruct (Qnum x <? 0)%Z.
    + assert (Q : - (inject_Z m * 10 ^ (X - 5)) - x == - (inject_Z m * 10 ^ (X - 5) - Qabs x)) by (rewrite A at 1; ring). rewrite Q, Qabs_opp. exact R.
    + assert (Q : inject_Z m * 10 ^ (X - 5) - x == inject_Z m * 10 ^ (X - 5) - Qabs x) by (rewrite A at 1; ring). rewrite Q. exact R.
Qed.
Lemma sgn_compat : forall x y, x == y -> (Qnum x <? 0)%Z = (Qnum y <? 0)%Z /\ (Qnum x =? 0)%Z = (Qnum y =? 0)%Z.
Proof. intros [a b] [c d] E. unfold Qeq in E. cbn in *. split; [destruct (Z.ltb_spec a 0), (Z.ltb_spec c 0)|destruct (Z.eqb_spec a 0), (Z.eqb_spec c 0)]; auto; nia. Qed.
Theorem shown_exact : forall x, six_digits x -> shown x == x.
Proof.
  intros x (m & e & Hm & E). unfold shown. destruct (Z.eqb_spec (Qnum x) 0) as [Z1|Z1]; [unfold Qeq; cbn; lia|]. destruct (abs_cases x Z1) as [P A].
  assert (AE : Qabs x == inject_Z (Z.abs m) * 10 ^ e). { rewrite E, Qabs_Qmult, (Qabs_pos (10 ^ e)) by apply Qlt_le_weak, p10. reflexivity. }
  assert (M0 : (0 < Z.abs m)%Z). { destruct (Z.eq_dec m 0) as [->|]; [|lia]. cbn in AE. rewrite AE in P. rewrite Qmult_0_l in P. discriminate. }
  destruct (norm6 (Z.abs m) ltac:(lia)) as (k & m' & Hk & S6 & Em).
  assert (V : Qabs x == inject_Z m' * 10 ^ (e - k + 5 - 5)). { rewrite AE, Em, inject_Z_mult, p10Z by exact Hk. rewrite <- Qmult_assoc, <- Qpower_plus by apply ten0. replace (k + (e - k + 5 - 5))%Z with e by lia. reflexivity. }
  rewrite (round6_exact _ m' (e - k + 5) S6 V). destruct (Qnum x <? 0)%Z; rewrite A, V; reflexivity.
Qed.
Lemma shown_six : forall x, six_digits (shown x).
Proof.
  intros x. unfold shown. destruct (Z.eqb_spec (Qnum x) 0) as [E|E]; [exists 0%Z, 0%Z; split; [lia|reflexivity]|]. destruct (abs_cases x E) as [P _]. pose proof (round6_ok (Qabs x) P) as R.
  destruct (round6 (Qabs x)) as [m X]. destruct R as [[M1 M2] _]. destruct (Qnum x <? 0)%Z; [exists (- m)%Z, (X - 5)%Z|exists m, (X - 5)%Z]; (split; [lia|]); [rewrite inject_Z_opp; ring|reflexivity].
Qed.
(** the text of the number that was read is the same text *)
Theorem fmt_stable : forall x y, y == shown x -> fmt_g y = fmt_g x.
Proof.
  intros x y H. unfold shown in H. unfold fmt_g. destruct (Z.eqb_spec (Qnum x) 0) as [E|E].
  - destruct (sgn_compat _ _ H) as [_ ->]. reflexivity.
  - destruct (abs_cases x E) as [P _]. pose proof (round6_ok (Qabs x) P) as R. destruct (round6 (Qabs x)) as [m X] eqn:ER. destruct R as [Hm _].
    assert (PV : 0 < inject_Z m * 10 ^ (X - 5)). { apply Qmult_lt_0_compat; [|apply p10]. unfold six in Hm. change 0 with (inject_Z 0). rewrite <- Zlt_Qlt. lia. }
    assert (AY : Qabs y == inject_Z m * 10 ^ (X - 5)). { rewrite H. destruct (Qnum x <? 0)%Z; [rewrite Qabs_opp|]; apply Qabs_pos, Qlt_le_weak, PV. }
    rewrite (round6_exact _ m X Hm AY). destruct y as [a b]. cbn [Qnum] in *. destruct (Z.ltb_spec (Qnum x) 0) as [L|L].
    + assert (LT : (a # b) < 0) by (rewrite H; lra). unfold Qlt in LT. cbn in LT. destruct (Z.eqb_spec a 0); [lia|]. destruct (Z.ltb_spec a 0); [reflexivity|lia].
    + assert (LT : 0 < (a # b)) by (rewrite H; exact PV). unfold Qlt in LT. cbn in LT. destruct (Z.eqb_spec a 0); [lia|]. destruct (Z.ltb_spec a 0); [lia|reflexivity].
Qed.
