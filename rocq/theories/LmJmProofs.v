(** Proofs about the interpolated probabilities. *)
From Coq Require Import Ascii String Arith NArith QArith Qround Lqa List Bool Lia Permutation.
From Verif Require Import AMap ContainerSpec ContainerModel ContainerProofs TrieIterSpec TrieIterModel TrieIterProofs LmSpec LmModel LmDrive LmTabProofs LmEncProofs.
Import ListNotations.
Open Scope nat_scope.


Lemma jm_weight_ok : forall j n s t, tabwf t -> weights_cover j n -> length s <= n -> exists a, jm_weight j s t = Some a /\ In a (jweights j).
Proof.
  intros j n s t W (B & L & Z) Ln. unfold jm_weight.
  assert (N : forall k, k < length (jweights j) -> exists a, nth_error (jweights j) k = Some a /\ In a (jweights j)).
  { intros k Hk. destruct (nth_error (jweights j) k) as [a|] eqn:E; [exists a; split; auto; eapply nth_error_In; eauto|]. apply nth_error_None in E. lia. }
  destruct (jbuckets j =? 1) eqn:E1.
  - apply Nat.eqb_eq in E1. rewrite E1 in L. apply N. lia.
  - apply Nat.eqb_neq in E1. destruct Z as [Z|Z]; [congruence|]. rewrite (cSrc_val s t W). cbn [obind].
    destruct (Qle_bool (jsize j) 0) eqn:E2; [apply Qle_bool_iff in E2; lra|]. apply N.
    set (b := Z.to_nat (Qfloor (vs s t / jsize j))). clearbody b. destruct (jbuckets j - 1 <? b) eqn:E3; [|apply Nat.ltb_ge in E3];
      assert ((length s + 1) * jbuckets j <= (n + 1) * jbuckets j) by (apply Nat.mul_le_mono_r; lia); lia.
Qed.

Section SUM.
Variable V : list nat.                          (* all word codes *)
Variable t : tab.
Hypothesis Wt : tabwf t.
Hypothesis NN : forall s i, (0 <= vst s i t)%Q.
Hypothesis MASS : forall s, (vs s t == qsum (map (fun i => vst s i t) V))%Q.
Hypothesis VPOS : 0 < length V.

Lemma tab_p_val : forall s i, exists p, tab_p s i t = Some p /\ (p == if Qeq_bool (vs s t) 0 then 0 else vst s i t / vs s t)%Q.
Proof.
  intros s i. unfold tab_p. rewrite (cSrc_val s t Wt). cbn [obind]. destruct (tfind_val (s ++ [i]) (tst t) (proj1 Wt) (snoc_ne s i)) as (r & E & Vr).
  rewrite E. cbn [obind]. eexists. split; [reflexivity|]. unfold vst. rewrite Vr. destruct r as [d|]; [reflexivity|]. destruct (Qeq_bool (vs s t) 0); [reflexivity|].
  unfold Qdiv. rewrite Qmult_0_l. reflexivity.
Qed.
Lemma qsum_scale : forall (f : nat -> Q) c l, (qsum (map (fun i => f i * c) l) == qsum (map f l) * c)%Q.
Proof. intros f c. induction l as [|i l IH]; cbn [map qsum fold_right]; [ring|]. unfold qsum in IH. rewrite IH. ring. Qed.
Lemma qsum_nonneg : forall (f : nat -> Q) l, (forall i, In i l -> 0 <= f i)%Q -> (0 <= qsum (map f l))%Q.
Proof. intros f. induction l as [|i l IH]; intro H; cbn [map qsum fold_right]; [apply Qle_refl|]. unfold qsum in IH. specialize (IH (fun x I => H x (or_intror I))). specialize (H i (or_introl eq_refl)). lra. Qed.
Lemma qsum_const : forall c l, (qsum (map (fun _ : nat => c) l) == inject_Z (Z.of_nat (length l)) * c)%Q.
Proof.
  intros c. induction l as [|i l IH]; cbn [map qsum fold_right length]; [ring|]. unfold qsum in IH. rewrite IH. rewrite Nat2Z.inj_succ, <- Z.add_1_l, inject_Z_plus. ring.
Qed.
Lemma qsum_mem : forall (f : nat -> Q) l i, (forall x, In x l -> 0 <= f x)%Q -> In i l -> (f i <= qsum (map f l))%Q.
Proof.
  intros f. induction l as [|x l IH]; intros i H I; [destruct I|]. cbn [map qsum fold_right]. assert (A := qsum_nonneg f l (fun y J => H y (or_intror J))). unfold qsum in *.
  destruct I as [->|I]; [lra|]. specialize (IH i (fun y J => H y (or_intror J)) I). specialize (H x (or_introl eq_refl)). lra.
Qed.
Lemma tp_facts : forall s, exists f, (forall i, tab_p s i t = Some (f i)) /\ (forall i, 0 <= f i)%Q /\
  (qsum (map f V) == if Qeq_bool (vs s t) 0 then 0 else 1)%Q.
Proof.
  intro s. exists (fun i => match tab_p s i t with Some p => p | None => 0%Q end).
  assert (Hp : forall i, exists p, tab_p s i t = Some p /\ (p == if Qeq_bool (vs s t) 0 then 0 else vst s i t * / vs s t)%Q) by (intro i; apply tab_p_val).
  assert (P : (0 <= vs s t)%Q) by (rewrite MASS; apply qsum_nonneg; intros; apply NN).
  split; [intro i; destruct (Hp i) as (p & E & _); now rewrite E|]. split.
  - intro i. destruct (Hp i) as (p & E & X). rewrite E, X. destruct (Qeq_bool (vs s t) 0) eqn:G; [apply Qle_refl|].
    apply Qmult_le_0_compat; [apply NN|]. apply Qinv_le_0_compat. exact P.
  - destruct (Qeq_bool (vs s t) 0) eqn:G.
    + apply qsum_zero. intros i _. destruct (Hp i) as (p & E & X). now rewrite E, X.
    + rewrite (qsum_ext _ (fun i => vst s i t * / vs s t)%Q).
      * rewrite qsum_scale, <- MASS. apply Qmult_inv_r. intro Z. apply Qeq_bool_neq in G. contradiction.
      * intros i _. destruct (Hp i) as (p & E & X). now rewrite E, X.
Qed.

Lemma jm_rec_facts : forall j n, weights_cover j n -> (forall a, In a (jweights j) -> 0 <= a <= 1)%Q -> forall s, length s <= n ->
  exists f, (forall i, jm_rec j (length V) t s i = Some (f i)) /\ (forall i, 0 <= f i)%Q /\ (qsum (map f V) <= 1)%Q /\
    ((forall s', In s' (suffixes s) -> ~ vs s' t == 0)%Q -> (qsum (map f V) == 1)%Q) /\
    ((forall a, In a (jweights j) -> a < 1)%Q -> forall i, 0 < f i)%Q.
Proof.
  intros j n C R. induction s as [|x s IH]; intro L.
  - destruct (jm_weight_ok j n [] t Wt C L) as (a & Ea & Ia). destruct (tp_facts []) as (g & Eg & Pg & Sg). specialize (R a Ia).
    set (u := (1 / inject_Z (Z.of_nat (length V)))%Q).
    assert (Hv : (0 < inject_Z (Z.of_nat (length V)))%Q) by (change 0%Q with (inject_Z 0); rewrite <- Zlt_Qlt; lia).
    assert (Hu : (0 < u)%Q) by (unfold u; apply Qlt_shift_div_l; [exact Hv|lra]).
    assert (Su : (qsum (map (fun _ : nat => u) V) == 1)%Q) by (rewrite qsum_const; unfold u; field; intro Z; rewrite Z in Hv; now apply Qlt_irrefl in Hv).
    exists (fun i => a * g i + (1 - a) * u)%Q. cbn [jm_rec]. rewrite Ea. cbn [obind]. destruct (length V =? 0) eqn:EV; [apply Nat.eqb_eq in EV; lia|].
    assert (SS : (qsum (map (fun i => a * g i + (1 - a) * u) V) == a * (if Qeq_bool (vs [] t) 0 then 0 else 1) + (1 - a))%Q).
    { rewrite qsum_add. rewrite (qsum_ext (fun i => a * g i)%Q (fun i => g i * a)%Q) by (intros; ring). rewrite qsum_scale, Sg.
      rewrite (qsum_ext (fun _ => (1 - a) * u)%Q (fun _ => u * (1 - a))%Q) by (intros; ring). rewrite (qsum_scale (fun _ => u)), Su. ring. }
    split; [intro i; rewrite Eg; reflexivity|]. split; [|split; [|split]].
    + intro i. specialize (Pg i). assert (0 <= a * g i)%Q by (apply Qmult_le_0_compat; lra). assert (0 <= (1 - a) * u)%Q by (apply Qmult_le_0_compat; lra). lra.
    + rewrite SS. destruct (Qeq_bool (vs [] t) 0); lra.
    + intro H. rewrite SS. destruct (Qeq_bool (vs [] t) 0) eqn:G; [|lra]. exfalso. apply (H []); [cbn; auto|]. now apply Qeq_bool_eq in G.
    + intros H i. specialize (Pg i). specialize (H a Ia). assert (0 <= a * g i)%Q by (apply Qmult_le_0_compat; lra).
      assert (0 < (1 - a) * u)%Q by (apply Qmult_lt_0_compat; lra). lra.
  - cbn [length] in L. destruct (jm_weight_ok j n (x :: s) t Wt C) as (a & Ea & Ia); [cbn [length]; lia|]. destruct (tp_facts (x :: s)) as (g & Eg & Pg & Sg).
    destruct IH as (f & Ef & Pf & Sf & Sf1 & Pf1); [lia|]. assert (Ra := R a Ia).
    exists (fun i => a * g i + (1 - a) * f i)%Q. cbn [jm_rec]. rewrite Ea. cbn [obind].
    assert (SS : (qsum (map (fun i => a * g i + (1 - a) * f i) V) == a * (if Qeq_bool (vs (x :: s) t) 0 then 0 else 1) + (1 - a) * qsum (map f V))%Q).
    { rewrite qsum_add. rewrite (qsum_ext (fun i => a * g i)%Q (fun i => g i * a)%Q) by (intros; ring). rewrite qsum_scale, Sg.
      rewrite (qsum_ext (fun i => (1 - a) * f i)%Q (fun i => f i * (1 - a))%Q) by (intros; ring). rewrite qsum_scale. ring. }
    split; [intro i; rewrite Eg; cbn [obind]; rewrite Ef; reflexivity|]. split; [|split; [|split]].
    + intro i. specialize (Pg i). specialize (Pf i). assert (0 <= a * g i)%Q by (apply Qmult_le_0_compat; lra). assert (0 <= (1 - a) * f i)%Q by (apply Qmult_le_0_compat; lra). lra.
    + rewrite SS. assert (0 <= (1 - a) * (1 - qsum (map f V)))%Q by (apply Qmult_le_0_compat; lra). destruct (Qeq_bool (vs (x :: s) t) 0); lra.
    + intro H. rewrite SS. rewrite Sf1 by (intros s' I; apply H; cbn [suffixes]; now right).
      destruct (Qeq_bool (vs (x :: s) t) 0) eqn:G; [|lra]. exfalso. apply (H (x :: s)); [cbn [suffixes]; now left|]. now apply Qeq_bool_eq in G.
    + intros H i. specialize (Pg i). specialize (Pf1 H i). specialize (H a Ia). assert (0 <= a * g i)%Q by (apply Qmult_le_0_compat; lra).
      assert (0 < (1 - a) * f i)%Q by (apply Qmult_lt_0_compat; lra). lra.
Qed.
End SUM.

Lemma strip_length : forall b s, length (strip_bos b s) <= length s.
Proof. intros b s. unfold strip_bos. destruct (2 <=? length s); auto. rewrite skipn_length. lia. Qed.
Lemma strip_bos_ext : forall b s, strip_bos b (b :: b :: s) = strip_bos b (b :: s).
Proof.
  intros b s. unfold strip_bos. change (2 <=? length (b :: b :: s)) with true. cbn [lead]. rewrite Nat.eqb_refl. destruct s as [|x s].
  - reflexivity.
  - change (2 <=? length (b :: x :: s)) with true. replace (S (S (lead b (x :: s))) - 1) with (S (S (lead b (x :: s)) - 1)) by lia. reflexivity.
Qed.

(** ** models trained by increments *)
Lemma incr_iops : forall e evs iops, Forall2 (op_enc e) (incrs evs) iops ->
  exists ievs, iops = incrs ievs /\ Forall2 (fun ev ie => codes e (fst (fst ev)) (fst (fst ie)) /\ enc_find (snd (fst ev)) e = Some (snd (fst ie)) /\ snd ie = snd ev) evs ievs.
Proof.
  intros e evs. induction evs as [|[[h w] c] evs IH]; intros iops F; unfold incrs in F; cbn [map fst snd] in F; inversion F as [|? o ? iops' A F']; subst.
  - exists []. split; auto.
  - destruct (IH _ F') as (ievs & -> & G). destruct o as [s i c'|]; cbn [op_enc] in A; [|tauto]. destruct A as (A1 & A2 & ->).
    exists ((s, i, c) :: ievs). split; [reflexivity|constructor; auto].
Qed.

Lemma vocab_nodup : forall e, encwf e -> NoDup (vocab e).
Proof.
  intros e (A & B & C). unfold vocab. unfold awf in A.
  assert (G : forall l, NoDup (map fst l) -> (forall w w' i, In (w, i) l -> In (w', i) l -> w = w') -> NoDup (map (@snd string nat) l)).
  { induction l as [|[w i] l IH]; intros ND Inj; cbn [map fst snd] in *; [constructor|]. inversion ND; subst. constructor.
    - intro X. apply in_map_iff in X. destruct X as ([w' i'] & Ei & I). cbn [snd] in Ei. subst i'. assert (w = w') by (eapply Inj; [now left|right; eauto]). subst w'.
      apply H1. apply in_map_iff. exists (w, i). auto.
    - apply IH; auto. intros. eapply Inj; right; eauto. }
  apply G; auto. intros w w' i I I'. apply aget_in with (eqd := string_dec) in I; auto. apply aget_in with (eqd := string_dec) in I'; auto.
  unfold enc_find in B. apply (B w i) in I. apply (B w' i) in I'. congruence.
Qed.
Lemma vocab_in : forall e w i, enc_find w e = Some i -> In i (vocab e).
Proof. intros e w i H. unfold vocab. apply in_map_iff. exists (w, i). split; auto. apply aget_some_in in H. exact H. Qed.

Lemma trained_facts : forall evs iops m, nonneg_counts evs -> lmrel tab0 (incrs evs) iops m ->
  tabwf (ltab m) /\ (forall s i, 0 <= vst s i (ltab m))%Q /\ (forall s, vs s (ltab m) == qsum (map (fun i => vst s i (ltab m)) (vocab (lenc m))))%Q.
Proof.
  intros evs iops m NN (W & T & F). destruct (incr_iops _ _ _ F) as (ievs & -> & G).
  destruct (tab_run_ok (incrs ievs) tab0 tab0_wf) as (t & E & Wt & A & B). assert (t = ltab m) by congruence. subst t.
  assert (NNi : nonneg_counts ievs). { clear -NN G. intros ie I. induction G as [|ev ie' evs ievs (X1 & X2 & X3) G IH]; [destruct I|].
    destruct I as [->|I]; [rewrite X3; apply NN; now left|apply IH; auto; intros e' I'; apply NN; now right]. }
  assert (A' : forall s i, (vst s i (ltab m) == total_ngram Nat.eq_dec s i ievs)%Q). { intros s i. rewrite A, ngram_after_incrs, (proj1 (tab0_val s i)). ring. }
  assert (B' : forall s, (vs s (ltab m) == total_hist Nat.eq_dec s ievs)%Q). { intros s. rewrite B, hist_after_incrs, (proj2 (tab0_val s 0)). ring. }
  split; auto. split; [intros s i; rewrite A'; apply total_nonneg; auto|].
  intro s. rewrite B'. rewrite (hist_is_sum Nat.eq_dec s (vocab (lenc m)) ievs (vocab_nodup _ W)).
  - apply qsum_ext. intros i _. symmetry. apply A'.
  - intros i c I. clear -G I. induction G as [|ev ie' evs ievs (X1 & X2 & X3) G IH]; [destruct I|]. destruct I as [->|I]; [eapply vocab_in; eauto|auto].
Qed.

Theorem jm_distribution : forall evs iops m j n s, nonneg_counts evs -> lmrel tab0 (incrs evs) iops m -> (exists w, known (lenc m) w) ->
  weights_cover j n -> (forall a, In a (jweights j) -> 0 <= a <= 1)%Q -> length s <= n ->
  exists f, (forall i, jm_p j m s i = Some (f i)) /\ (forall i, In i (vocab (lenc m)) -> 0 <= f i <= 1)%Q /\ (qsum (map f (vocab (lenc m))) <= 1)%Q /\
    ((forall s', In s' (suffixes (strip_bos (getBosId (lenc m)) s)) -> exists c, cSrc s' (ltab m) = Some c /\ ~ c == 0)%Q -> (qsum (map f (vocab (lenc m))) == 1)%Q) /\
    ((forall a, In a (jweights j) -> a < 1)%Q -> forall i, 0 < f i)%Q.
Proof.
  intros evs iops m j n s NN R (w0 & k0 & K0) C Rg L. destruct (trained_facts evs iops m NN R) as (Wt & N & M). unfold jm_p, getVocabSize.
  assert (VL : length (h2x (lenc m)) = length (vocab (lenc m))) by (unfold vocab; now rewrite map_length).
  assert (VP : 0 < length (vocab (lenc m))). { apply vocab_in in K0. destruct (vocab (lenc m)); [destruct K0|cbn; lia]. }
  rewrite VL. destruct (jm_rec_facts (vocab (lenc m)) (ltab m) Wt N M VP j n C Rg (strip_bos (getBosId (lenc m)) s)) as (f & E & P & S1 & S2 & S3).
  { pose proof (strip_length (getBosId (lenc m)) s). lia. }
  exists f. split; auto. split; [|split; [auto|split; [|auto]]].
  - intros i I. split; auto. pose proof (qsum_mem f (vocab (lenc m)) i (fun x _ => P x) I). lra.
  - intro H. apply S2. intros s' I. destruct (H s' I) as (c & Ec & Nc). rewrite cSrc_val in Ec by auto. injection Ec as <-. exact Nc.
Qed.
