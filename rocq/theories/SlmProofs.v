From Coq Require Import Reals Arith ZArith List Bool Lra Lia.
From Verif Require Import RSums HmmModel HmmCacheProofs SlmSpec SlmModel.
Import ListNotations.
Open Scope R_scope.
Definition enc (o : obs) := (o_slen o, o_tlen o, o_w o).
Definition trained (h : list obs) : slm := train_all (map enc h).
Lemma nth_set_at : forall {A} (d v : A) i j l, nth j (set_at d i v l) d = if Nat.eqb i j then v else nth j l d.
Proof.
  intros A d v i j l. unfold set_at, grow.
  assert (G : forall j, nth j (l ++ repeat d (S i - length l)) d = nth j l d).
  { intros k. destruct (Nat.lt_ge_cases k (length l)); [apply app_nth1; auto|]. rewrite app_nth2, (nth_overflow l) by auto. apply nth_repeat. }
  destruct (Nat.eqb_spec i j) as [->|N].
  - apply nth_error_nth. apply setn_same. rewrite app_length, repeat_length. lia.
  - rewrite <- (G j).
    destruct (nth_error (l ++ repeat d (S i - length l)) j) as [x|] eqn:E.
    + rewrite (nth_error_nth _ _ d E). apply nth_error_nth. rewrite setn_other; auto.
    + rewrite !nth_overflow; auto; [|rewrite setn_len]; now apply nth_error_None.
Qed.
Lemma trained_snoc : forall h o, trained (h ++ [o]) = trainSentPair (trained h) (o_slen o) (o_tlen o) (o_w o).
Proof. intros. unfold trained, train_all. rewrite map_app, fold_left_app. reflexivity. Qed.
Lemma seen_snoc : forall s h o, seen_with s (h ++ [o]) = seen_with s h ++ (if Nat.eqb (o_slen o) s then [o] else []).
Proof. intros. unfold seen_with. rewrite filter_app. reflexivity. Qed.
Definition S1 (h : list obs) := sumf (fun o => o_w o * INR (o_tlen o)) h.
Definition S2 (h : list obs) := sumf (fun o => o_w o * (INR (o_tlen o) * INR (o_tlen o))) h.
Lemma ssq : forall h a, sumf (fun o => o_w o * ((INR (o_tlen o) - a) * (INR (o_tlen o) - a))) h = S2 h - 2 * a * S1 h + a * a * weight h.
Proof. intros h a. unfold S2, S1, weight. induction h as [|o h IH]; cbn; [lra|]. rewrite IH. lra. Qed.
Lemma weight_pos : forall h, positive h -> h <> [] -> 0 < weight h.
Proof.
  intros [|o h] P N; [congruence|]. unfold weight. apply (sumf_pos o_w _ o); [|left; auto|now inversion P]. unfold positive in P. rewrite Forall_forall in P. intros x X. apply Rlt_le, P; auto.
Qed.
Lemma seen_pos : forall s h, positive h -> positive (seen_with s h).
Proof. intros s h P. unfold positive, seen_with in *. rewrite Forall_forall in *. intros x X. apply filter_In in X as [X _]. auto. Qed.
Lemma train_inv : forall h, positive h ->
  numSents (trained h) = length h /\ slenSum (trained h) = fold_right plus 0%nat (map o_slen h) /\ tlenSum (trained h) = fold_right plus 0%nat (map o_tlen h) /\
  forall s, let L := seen_with s h in
  get_k (trained h) s = length L /\ get_swk (trained h) s = weight L /\
  (L <> [] -> get_mk (trained h) s = wmean L /\ get_sk (trained h) s = sumf (fun o => o_w o * ((INR (o_tlen o) - wmean L) * (INR (o_tlen o) - wmean L))) L).
Proof.
  induction h as [|o h IH] using rev_ind; intros P.
  - do 3 (split; [reflexivity|]). intros s L. split; [destruct s; reflexivity|]. split; [destruct s; reflexivity|]. intros H. now destruct H.
  - unfold positive in P. apply Forall_app in P as [Ph Po]. destruct (IH Ph) as (N1 & N2 & N3 & K). clear IH. rewrite trained_snoc. inversion Po as [|? ? Pw _]; subst. clear Po.
    assert (FR : forall l x, fold_right plus 0%nat (l ++ [x]) = (fold_right plus 0 l + x)%nat) by (induction l; intros; cbn in *; [lia|rewrite IHl; lia]).
    split; [|split; [|split]].
    1-3: unfold trainSentPair; rewrite ?map_app, ?app_length; cbn [map length]; rewrite ?FR; destruct (Nat.eqb _ 0); cbn; lia.
    intros s L. unfold L. rewrite seen_snoc.
    destruct (K s) as (K1 & K2 & K3). destruct (K (o_slen o)) as (Q1 & Q2 & Q3).
    destruct (Nat.eqb_spec (o_slen o) s) as [E|NE].
    + subst s. set (M := seen_with (o_slen o) h) in *. unfold trainSentPair. rewrite Q1. destruct (Nat.eqb_spec (length M) 0) as [Z|Z].
      * apply length_zero_iff_nil in Z. rewrite Z. cbn [app]. unfold get_k, get_swk, get_mk, get_sk. cbn [kVec swkVec mkVec skVec]. rewrite !nth_set_at, Nat.eqb_refl.
        unfold wmean, weight. cbn [sumf length]. split; [reflexivity|]. split; [lra|]. intros _.
        assert (W : (o_w o * INR (o_tlen o) + 0) / (o_w o + 0) = INR (o_tlen o)) by (field; lra). split; [lra|rewrite W; lra].
      * assert (NM : M <> []) by (intros ->; now apply Z). destruct (Q3 NM) as [Q4 Q5]. rewrite Q2, Q4, Q5. unfold get_k, get_swk, get_mk, get_sk. cbn [kVec swkVec mkVec skVec].
        rewrite !nth_set_at, Nat.eqb_refl. rewrite app_length. cbn [length]. split; [lia|].
        assert (WE : weight (M ++ [o]) = weight M + o_w o) by (unfold weight; rewrite sumf_app; cbn; lra).
        assert (WP : 0 < weight M) by (apply weight_pos; auto; apply seen_pos; auto).
        split; [lra|]. intros _. rewrite !ssq.
        assert (E1 : S1 (M ++ [o]) = S1 M + o_w o * INR (o_tlen o)) by (unfold S1; rewrite sumf_app; cbn; lra).
        assert (E2 : S2 (M ++ [o]) = S2 M + o_w o * (INR (o_tlen o) * INR (o_tlen o))) by (unfold S2; rewrite sumf_app; cbn; lra).
        unfold wmean. change (sumf (fun o => o_w o * INR (o_tlen o)) M) with (S1 M). change (sumf (fun o => o_w o * INR (o_tlen o)) (M ++ [o])) with (S1 (M ++ [o])).
        rewrite E1, E2, WE. split; field; lra.
    + rewrite app_nil_r. unfold trainSentPair. assert (NB : Nat.eqb (o_slen o) s = false) by (apply Nat.eqb_neq; auto).
      destruct (Nat.eqb (get_k (trained h) (o_slen o)) 0); unfold get_k, get_swk, get_mk, get_sk in *; cbn [kVec swkVec mkVec skVec]; rewrite !nth_set_at, NB; auto.
Qed.
Lemma wvar_nonneg : forall h, positive h -> h <> [] -> 0 <= sumf (fun o => o_w o * ((INR (o_tlen o) - wmean h) * (INR (o_tlen o) - wmean h))) h.
Proof. intros h P N. apply sumf_nonneg. intros o O. unfold positive in P. rewrite Forall_forall in P. specialize (P o O). apply Rmult_le_pos; [lra|]. apply Rle_0_sqr. Qed.
Lemma stddev_spec : forall h s, positive h -> let L := seen_with s h in
  ((length L < 2)%nat -> get_mean_stddev (trained h) s = None) /\
  ((2 <= length L)%nat -> get_mean_stddev (trained h) s = Some (wmean L, sqrt (wvar L))).
Proof.
  intros h s P L. destruct (train_inv h P) as (_ & _ & _ & K). destruct (K s) as (K1 & K2 & K3). fold L in K1, K2, K3. unfold get_mean_stddev. rewrite K1. split; intros H.
  - destruct (Nat.ltb_spec (length L) 2); [reflexivity|lia].
  - destruct (Nat.ltb_spec (length L) 2); [lia|]. assert (NL : L <> []) by (intros ->; cbn in H; lia). destruct (K3 NL) as [K4 K5]. rewrite K4, K5, K2. do 3 f_equal.
    unfold wvar. assert (0 < weight L) by (apply weight_pos; auto; apply seen_pos; auto). assert (0 < INR (length L - 1)) by (apply lt_0_INR; lia). field. lra.
Qed.
