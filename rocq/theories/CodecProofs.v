From Coq Require Import NArith List Bool Lia.
From Verif Require Import CodecModel CodecSpec.
Import ListNotations.
Open Scope N_scope.

Lemma base_pos : forall j, base ^ N.of_nat j <> 0.
Proof. intros; apply N.pow_nonzero; discriminate. Qed.

Lemma base_succ : forall j, base ^ N.of_nat (S j) = base ^ N.of_nat j * base.
Proof. intros; rewrite Nat2N.inj_succ, N.pow_succ_r'; lia. Qed.

Lemma digit_lt : forall w j, (w / base ^ N.of_nat j) mod base < 254.
Proof. intros; apply N.mod_lt; discriminate. Qed.

Lemma digit_byte : forall w j,
  (1 + (w / base ^ N.of_nat j) mod base) mod 256 = 1 + (w / base ^ N.of_nat j) mod base.
Proof. intros; apply N.mod_small; pose proof (digit_lt w j) as H; revert H; generalize ((w / base ^ N.of_nat j) mod base); intros; lia. Qed.

Lemma enc_word_length : forall k w, length (enc_word k w) = k.
Proof. induction k; simpl; auto. Qed.

Lemma enc_word_bytes : forall k w, Forall (fun b => 1 <= b <= 254) (enc_word k w).
Proof.
  induction k; intros; cbn [enc_word]; constructor; auto.
  rewrite digit_byte. pose proof (digit_lt w k) as H. revert H.
  generalize ((w / base ^ N.of_nat k) mod base). intros; lia.
Qed.

Lemma dec_enc_word : forall k w r acc, acc < two32 ->
  dec_word k (enc_word k w ++ r) acc = Some ((acc + w mod base ^ N.of_nat k) mod two32, r).
Proof.
  induction k; intros w r acc Ha.
  - cbn [enc_word dec_word app]. change (base ^ N.of_nat 0) with 1. rewrite N.mod_1_r, N.add_0_r, N.mod_small by assumption.
    reflexivity.
  - cbn [enc_word dec_word app]. rewrite digit_byte.
    rewrite IHk by (apply N.mod_lt; discriminate).
    f_equal. f_equal.
    rewrite base_succ.
    set (p := base ^ N.of_nat k) in *.
    assert (Hp : p <> 0) by apply base_pos.
    rewrite (N.mod_mul_r w p base) by (auto; discriminate).
    set (d := (w / p) mod base).
    replace (1 + d + two32 - 1) with (d + two32) by (unfold two32; lia).
    rewrite N.add_mod_idemp_l by discriminate.
    replace (acc + (d + two32) * p + w mod p) with (acc + (w mod p + p * d) + p * two32) by lia.
    now rewrite N.mod_add by discriminate.
Qed.

Lemma dec_vec_fuel_enc : forall k v fuel, (0 < k)%nat ->
  (length (enc_vec k v) <= fuel)%nat ->
  Forall (fun w => w < two32) v -> words_below (base ^ N.of_nat k) v ->
  dec_vec_fuel fuel k (enc_vec k v) = Some v.
Proof.
  intros k v; induction v as [|w v IH]; intros fuel Hk Hf H32 Hb.
  - destruct fuel; reflexivity.
  - unfold enc_vec in *; cbn [flat_map] in *.
    inversion H32; subst. inversion Hb; subst.
    rewrite app_length, enc_word_length in Hf.
    destruct (enc_word k w ++ flat_map (enc_word k) v) eqn:E.
    { apply (f_equal (@length N)) in E. rewrite app_length, enc_word_length in E. simpl in E. lia. }
    destruct fuel as [|fuel]; [lia|].
    cbn [dec_vec_fuel].
    rewrite <- E, dec_enc_word by reflexivity.
    rewrite N.add_0_l, (N.mod_small w) by assumption.
    rewrite N.mod_small by assumption.
    rewrite IH; auto. lia.
Qed.

Lemma dec_enc_vec : forall k v, (0 < k)%nat -> Forall (fun w => w < two32) v ->
  words_below (base ^ N.of_nat k) v -> dec_vec k (enc_vec k v) = Some v.
Proof. intros; apply dec_vec_fuel_enc; auto. Qed.

(** ** Order preservation *)
Lemma lexlt_app_common : forall p a b, lexlt a b -> lexlt (p ++ a) (p ++ b).
Proof. induction p; simpl; auto using lexlt_tail. Qed.

Lemma enc_word_lt : forall k w w' r r', w < w' -> w' < base ^ N.of_nat k ->
  lexlt (enc_word k w ++ r) (enc_word k w' ++ r').
Proof.
  intros k w w' r r' Hlt Hb.
  assert (G : forall k, w mod base ^ N.of_nat k < w' mod base ^ N.of_nat k ->
              lexlt (enc_word k w ++ r) (enc_word k w' ++ r')).
  { induction k0; intros Hm.
    - change (base ^ N.of_nat 0) with 1 in Hm. rewrite !N.mod_1_r in Hm. lia.
    - cbn [enc_word app]. rewrite !digit_byte.
      rewrite base_succ in Hm.
      rewrite !N.mod_mul_r in Hm by (try apply base_pos; discriminate).
      set (p := base ^ N.of_nat k0) in *.
      set (d := (w / p) mod base) in *. set (d' := (w' / p) mod base) in *.
      assert (Hp : p <> 0) by apply base_pos.
      pose proof (N.mod_lt w p Hp) as M1. pose proof (N.mod_lt w' p Hp) as M2.
      revert Hm M1 M2 IHk0. generalize (w mod p) as m. generalize (w' mod p) as m'. intros m' m Hm M1 M2 IHk0.
      clearbody d d' p.
      destruct (N.lt_trichotomy d d') as [L|[E|L]].
      + apply lexlt_head; lia.
      + rewrite E. apply lexlt_tail. apply IHk0. rewrite E in Hm. lia.
      + exfalso. assert (p * (d' + 1) <= p * d) by (apply N.mul_le_mono_l; lia). rewrite N.mul_add_distr_l in *. lia. }
  apply G. rewrite !N.mod_small by lia. assumption.
Qed.

Lemma enc_vec_lt : forall k v v', (0 < k)%nat ->
  words_below (base ^ N.of_nat k) v -> words_below (base ^ N.of_nat k) v' ->
  lexlt v v' -> lexlt (enc_vec k v) (enc_vec k v').
Proof.
  intros k v v' Hk Hv Hv' H; induction H.
  - unfold enc_vec; cbn [flat_map]. destruct k; [lia|]. cbn [enc_word app flat_map]. constructor.
  - unfold enc_vec; cbn [flat_map]. inversion Hv'; subst. now apply enc_word_lt.
  - unfold enc_vec; cbn [flat_map]. apply lexlt_app_common. inversion Hv; inversion Hv'; subst. now apply IHlexlt.
Qed.

Lemma lexlt_irrefl : forall a, ~ lexlt a a.
Proof. induction a; intro H; inversion H; subst; try lia. auto. Qed.

Lemma lexlt_trans : forall a b c, lexlt a b -> lexlt b c -> lexlt a c.
Proof.
  intros a b c H; revert c; induction H; intros c Hc; inversion Hc; subst.
  - constructor.
  - constructor.
  - apply lexlt_head; lia.
  - now apply lexlt_head.
  - now apply lexlt_head.
  - apply lexlt_tail; auto.
Qed.

Lemma lexlt_total : forall a b, {lexlt a b} + {a = b} + {lexlt b a}.
Proof.
  induction a as [|x a IH]; destruct b as [|y b].
  - left; right; reflexivity.
  - left; left; constructor.
  - right; constructor.
  - destruct (x ?= y) eqn:E.
    + apply N.compare_eq in E; subst. destruct (IH b) as [[H|H]|H].
      * left; left; now apply lexlt_tail.
      * left; right; now f_equal.
      * right; now apply lexlt_tail.
    + left; left. apply lexlt_head. exact E.
    + right. apply lexlt_head. apply N.compare_gt_iff in E. exact E.
Qed.

Lemma enc_vec_lt_iff : forall k v v', (0 < k)%nat ->
  words_below (base ^ N.of_nat k) v -> words_below (base ^ N.of_nat k) v' ->
  (lexlt (enc_vec k v) (enc_vec k v') <-> lexlt v v').
Proof.
  intros k v v' Hk Hv Hv'; split; [|now apply enc_vec_lt].
  intro H. destruct (lexlt_total v v') as [[L|E]|G]; auto.
  - subst. now apply lexlt_irrefl in H.
  - apply (enc_vec_lt k) in G; auto. exfalso. apply (lexlt_irrefl (enc_vec k v)). eapply lexlt_trans; eauto.
Qed.

(** ** Phrase tables *)
Definition bound3 : N := base ^ 3.

Lemma below3_two32 : forall v, words_below bound3 v -> Forall (fun w => w < two32) v.
Proof. intros v; apply Forall_impl; intros w H; eapply N.lt_trans; [exact H|reflexivity]. Qed.

Lemma pt_roundtrip : forall v, words_below (254 ^ 3) v -> pt_keyToVector (pt_vectorToKey v) = Some v.
Proof.
  intros v H. unfold pt_keyToVector, pt_vectorToKey, pt_bytes. apply dec_enc_vec.
  - lia.
  - now apply below3_two32.
  - exact H.
Qed.

Lemma pt_key_bytes : forall v, Forall (fun b => 1 <= b <= 254) (pt_vectorToKey v).
Proof.
  intro v; unfold pt_vectorToKey, enc_vec. induction v; cbn [flat_map]; [constructor|].
  apply Forall_app; split; auto using enc_word_bytes.
Qed.

Lemma pt_key_inj : forall v v', words_below (254 ^ 3) v -> words_below (254 ^ 3) v' ->
  pt_vectorToKey v = pt_vectorToKey v' -> v = v'.
Proof.
  intros v v' H H' E. apply (f_equal pt_keyToVector) in E.
  rewrite !pt_roundtrip in E by assumption. now inversion E.
Qed.

Lemma pt_wrap_refuted : forall w, w < 254 ^ 3 -> pt_vectorToKey [w] = pt_vectorToKey [w + 254 ^ 3].
Proof.
  intros w Hw. unfold pt_vectorToKey, enc_vec, pt_bytes. cbn [flat_map app enc_word].
  assert (forall j, (j < 3)%nat -> ((w + 254 ^ 3) / base ^ N.of_nat j) mod base = (w / base ^ N.of_nat j) mod base) as E.
  { intros j Hj. destruct j as [|[|[|]]]; try lia.
    - change (base ^ N.of_nat 0) with 1. rewrite !N.div_1_r. change (254 ^ 3) with ((254 * 254) * 254).
      apply N.mod_add; discriminate.
    - change (base ^ N.of_nat 1) with 254. change (254 ^ 3) with ((254 * 254) * 254).
      rewrite N.div_add by discriminate. change (254 * 254) with (254 * base). apply N.mod_add; discriminate.
    - change (base ^ N.of_nat 2) with (254*254). change (254 ^ 3) with (1 * 254 * (254 * 254)).
      rewrite N.div_add by discriminate. apply N.mod_add; discriminate. }
  rewrite !E by lia. reflexivity.
Qed.

Lemma words_below_app : forall b u v, words_below b (u ++ v) <-> words_below b u /\ words_below b v.
Proof. intros; apply Forall_app. Qed.

Lemma below_src : forall s, words_below (254^3) s -> words_below (254^3) (getSrc s).
Proof. intros; constructor; [reflexivity|assumption]. Qed.
Lemma below_trgsrc : forall s t, words_below (254^3) s -> words_below (254^3) t -> words_below (254^3) (getTrgSrc s t).
Proof. intros; apply words_below_app; split; auto. constructor; [reflexivity|assumption]. Qed.

Lemma split_marker : forall (t t' s s' : list N) r, ~ In r t -> ~ In r t' -> t ++ r :: s = t' ++ r :: s' -> t = t' /\ s = s'.
Proof.
  induction t as [|a t IH]; intros t' s s' r H H' E; destruct t' as [|b t']; simpl in *.
  - inversion E; auto.
  - inversion E; subst. exfalso; apply H'; auto.
  - inversion E; subst. exfalso; apply H; auto.
  - inversion E; subst. destruct (IH t' s s' r) as [-> ->]; auto.
Qed.

Lemma src_key_inj : forall s s', words_below (254^3) s -> words_below (254^3) s' -> src_key s = src_key s' -> s = s'.
Proof. intros s s' H H' E. apply pt_key_inj in E; auto using below_src. now inversion E. Qed.
Lemma trgsrc_key_inj : forall s t s' t', words_below (254^3) s -> words_below (254^3) t ->
  words_below (254^3) s' -> words_below (254^3) t' -> avoids UNUSED_WORD t -> avoids UNUSED_WORD t' ->
  trgsrc_key s t = trgsrc_key s' t' -> s = s' /\ t = t'.
Proof.
  intros. apply pt_key_inj in H5; auto using below_trgsrc. unfold getTrgSrc in H5. simpl in H5.
  apply split_marker in H5; unfold avoids in *; tauto.
Qed.
Lemma src_trg_disjoint : forall s t, words_below (254^3) s -> words_below (254^3) t -> avoids UNUSED_WORD t ->
  src_key s <> trg_key t.
Proof. intros s t H H' A E. apply pt_key_inj in E; auto using below_src. subst. apply A. now left. Qed.
Lemma trg_trgsrc_disjoint : forall s t t', words_below (254^3) s -> words_below (254^3) t -> words_below (254^3) t' ->
  avoids UNUSED_WORD t' -> trgsrc_key s t <> trg_key t'.
Proof.
  intros s t t' H H' H'' A E. apply pt_key_inj in E; auto using below_trgsrc. subst. apply A.
  unfold getTrgSrc. rewrite in_app_iff. right; now left.
Qed.
Lemma src_trgsrc_disjoint : forall s' s t, words_below (254^3) s -> words_below (254^3) t -> words_below (254^3) s' ->
  avoids UNUSED_WORD t -> t <> [] -> src_key s' <> trgsrc_key s t.
Proof.
  intros s' s t H H' H'' A NE E. apply pt_key_inj in E; auto using below_trgsrc, below_src.
  destruct t as [|a t]; [congruence|]. unfold getSrc, getTrgSrc in E. simpl in E. inversion E; subst. apply A. now left.
Qed.

(** ** n-gram table *)
Lemma ng_roundtrip : forall v, words_below (254^3) v -> ng_keyToVector (ng_vectorToKey v) = Some v.
Proof. intros; apply pt_roundtrip; auto. Qed.
Lemma ng_inj : forall v v', words_below (254^3) v -> words_below (254^3) v' -> ng_vectorToKey v = ng_vectorToKey v' -> v = v'.
Proof.
  intros v v' H H' E. apply (f_equal ng_keyToVector) in E. rewrite !ng_roundtrip in E by auto. now inversion E.
Qed.
Lemma enc_vec_length : forall k v, length (enc_vec k v) = (k * length v)%nat.
Proof. intros k v; unfold enc_vec; induction v; simpl; [lia|]. rewrite app_length, enc_word_length, IHv. lia. Qed.
Lemma ng_null_fresh : forall v, ng_vectorToKey v <> ng_dbNullKey.
Proof.
  intros v E. apply (f_equal (@length N)) in E. unfold ng_vectorToKey, ng_dbNullKey in E. simpl length in E.
  rewrite enc_vec_length in E. unfold pt_bytes in E. lia.
Qed.
Lemma ng_order : forall v v', words_below (254^3) v -> words_below (254^3) v' -> length v = length v' ->
  (lexlt (ng_vectorToKey v) (ng_vectorToKey v') <-> lexlt v v').
Proof.
  intros v v' H H' L. unfold ng_vectorToKey. rewrite L. split; intro E.
  - inversion E; subst; [exfalso; eapply N.lt_irrefl; eassumption|].
    eapply (enc_vec_lt_iff pt_bytes); eauto. unfold pt_bytes; lia.
  - apply lexlt_tail. apply enc_vec_lt; auto. unfold pt_bytes; lia.
Qed.
Lemma ng_shorter_first : forall v v', (length v < length v')%nat -> (length v' <= 254)%nat ->
  lexlt (ng_vectorToKey v) (ng_vectorToKey v').
Proof. intros. unfold ng_vectorToKey. apply lexlt_head.
  rewrite (N.mod_small (N.of_nat (length v) + 1)) by lia. rewrite N.mod_small by lia. lia. Qed.

(** ** Lexical table *)
Lemma below_two32_5 : forall v, words_below (2^32) v -> words_below (base ^ N.of_nat lex_bytes) v.
Proof. intros v; apply Forall_impl; intros w H; eapply N.lt_trans; [exact H|reflexivity]. Qed.
Lemma lex_roundtrip : forall v, words_below (2^32) v -> lex_keyToVector (lex_vectorToKey v) = Some v.
Proof. intros v H. apply dec_enc_vec; [unfold lex_bytes; lia|exact H|]. now apply below_two32_5. Qed.
Lemma lex_inj : forall v v', words_below (2^32) v -> words_below (2^32) v' -> lex_vectorToKey v = lex_vectorToKey v' -> v = v'.
Proof.
  intros v v' H H' E. apply (f_equal lex_keyToVector) in E. rewrite !lex_roundtrip in E by auto. now inversion E.
Qed.
Lemma lex_order : forall v v', words_below (2^32) v -> words_below (2^32) v' ->
  (lexlt (lex_vectorToKey v) (lex_vectorToKey v') <-> lexlt v v').
Proof. intros. apply enc_vec_lt_iff; try (now apply below_two32_5). unfold lex_bytes; lia. Qed.
Lemma float_roundtrip : forall b, b < 2^32 -> stringToFloat (floatToString b) = Some b.
Proof.
  intros b H. unfold stringToFloat, floatToString.
  rewrite <- (app_nil_r (enc_word lex_bytes b)), dec_enc_word by reflexivity.
  rewrite N.add_0_l. rewrite (N.mod_small b) by (eapply N.lt_trans; [exact H|reflexivity]).
  now rewrite N.mod_small.
Qed.
