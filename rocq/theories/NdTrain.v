(** One training pass on a parameter table with arbitrary keys: kf gives the key of a position (target, source; from 0) of a sentence pair. *)
From Coq Require Import Reals NArith Arith List Bool Lra Lia.
From Verif Require Import AMap MathModel LogNum LogNumProofs RSums Ibm1Spec Ibm1Model Ibm1TrainProofs Ibm2Spec Ibm2Model NdProofs.
Import ListNotations.
Open Scope R_scope.
Lemma wnew_alig_pos : forall w a, (exists r, weighted_new_alig w a = Fin r) /\ lgexp (weighted_new_alig w a) = at_least_1e6 (w * a).
Proof.
  intros w a. unfold weighted_new_alig, at_least_1e6, SMOOTHING_WEIGHTED_ANJI. destruct (Rlt_dec (w * a) (/ 1000000)).
  - rewrite lgln_pos by lra. split; [eexists; reflexivity|]. cbn. rewrite exp_ln by lra. rewrite Rmax_right; lra.
  - rewrite lgln_pos by lra. split; [eexists; reflexivity|]. cbn. rewrite exp_ln by lra. rewrite Rmax_left; lra.
Qed.
Section TR.
Context {K1 K2 : Type}.
Variable d1 : forall a b : K1, {a = b} + {a <> b}.
Variable d2 : forall a b : K2, {a = b} + {a <> b}.
Variable kf : pair -> nat * nat -> K1 * K2.
Variable wnew : R -> R -> lg.
Hypothesis wnew_ok : forall w a, 0 < w -> 0 < a -> (exists r, wnew w a = Fin r) /\ lgexp (wnew w a) = at_least_1e6 (w * a).
Variable D : list pair.
Notation pr n := (nth n D no_pair).
Notation P2 := (pd d1 d2).
Definition pos_of (p : pair) := positions (with_null (src p)) (trg p).
Definition gocc (p : pair) (k : K1 * K2) : list (nat * nat) := filter (fun q => if P2 (kf p q) k then true else false) (pos_of p).
Definition gcount (p : pair) (m : list (list R)) (k : K1 * K2) : R := sumf (fun q => at_least_1e6 (weight p * nth (snd q) (nth (fst q) m []) 0)) (gocc p k).
Definition gcounts (ex : nat -> option (list (list R))) (k : K1 * K2) : R :=
  sumf (fun n => match ex n with Some m => gcount (pr n) m k | None => 0 end) (seq 0 (length D)).
Definition evs1 (old : option (list (list R))) (new : list (list R)) (p : pair) : list ((K1 * K2) * (lg * lg)) :=
  map (fun q => (kf p q, (weighted_curr (weight p) (match old with Some m => Some (cell m (fst q) (snd q)) | None => None end), wnew (weight p) (cell new (fst q) (snd q))))) (pos_of p).
Variable oldm : nat -> option (list (list R)).
Variable newm : nat -> list (list R).
Hypothesis wpos : forall p, In p D -> usable p -> 0 < weight p.
Hypothesis newpos : forall n q, In q (pos_of (pr n)) -> 0 < cell (newm n) (fst q) (snd q).
Hypothesis old_ok : forall n, oldm n <> None -> (n < length D)%nat /\ usable (pr n).
Definition evs (n : nat) := if usableb D n then evs1 (oldm n) (newm n) (pr n) else [].
Lemma gcount_nonneg : forall p m k, 0 <= gcount p m k.
Proof. intros. apply sumf_nonneg. intros q _. unfold at_least_1e6. pose proof (Rmax_r (weight p * nth (snd q) (nth (fst q) m []) 0) (/ 1000000)). lra. Qed.
Lemma gcount_pos : forall p m k, gocc p k <> [] -> 0 < gcount p m k.
Proof.
  intros p m k H. unfold gcount. destruct (gocc p k) as [|q l]; [congruence|]. cbn [sumf]. set (f := fun q : nat * nat => at_least_1e6 (weight p * nth (snd q) (nth (fst q) m []) 0)).
  change (0 < f q + sumf f l). assert (F : forall q, / 1000000 <= f q) by (intros; unfold f, at_least_1e6; apply Rmax_r). pose proof (F q). assert (0 <= sumf f l) by (apply sumf_nonneg; intros x _; pose proof (F x); lra). lra.
Qed.
Lemma gcount_zero : forall p m k, gocc p k = [] -> gcount p m k = 0.
Proof. intros p m k H. unfold gcount. now rewrite H. Qed.
Lemma usable_w : forall n, (n < length D)%nat -> usableb D n = true -> 0 < weight (pr n).
Proof. intros n H U. apply wpos; [apply nth_In, H|apply len_ok, U]. Qed.
Lemma evs_good : forall n, (n < length D)%nat -> Forall ok_ev (evs n).
Proof.
  intros n Hn. unfold evs. destruct (usableb D n) eqn:U; [|constructor]. rewrite Forall_forall. intros e He. unfold evs1 in He. rewrite in_map_iff in He. destruct He as (q & <- & Hq).
  split; cbn [fst snd]; [destruct (oldm n); [apply wcurr_some|discriminate]|]. apply wnew_ok; [apply usable_w; assumption|apply newpos, Hq].
Qed.
Definition oldc (k : K1 * K2) (n : nat) : R := match oldm n with Some m => gcount (pr n) m k | None => 0 end.
Definition newc (k : K1 * K2) (n : nat) : R := if usableb D n then gcount (pr n) (newm n) k else 0.
Lemma not_usable_old : forall n, usableb D n = false -> oldm n = None.
Proof. intros n U. destruct (oldm n) eqn:Q; [|reflexivity]. exfalso. destruct (old_ok n) as [_ X]; [congruence|]. apply len_ok in X. unfold usableb in U. congruence. Qed.
Lemma evs_cur1 : forall n k, curs d1 d2 k (evs n) = oldc k n.
Proof.
  intros n k. unfold evs, oldc. destruct (usableb D n) eqn:U; [|rewrite (not_usable_old n U); reflexivity]. unfold curs, evs1. rewrite sumf_map. destruct (oldm n) as [m|].
  - unfold gcount, gocc. rewrite sumf_filter. apply sumf_ext. intros q _. unfold at_key. cbn [fst snd]. destruct (P2 _ _); [apply wcurr_some|reflexivity].
  - transitivity (sumf (fun _ : nat * nat => 0) (pos_of (pr n))); [|apply sumf_0]. apply sumf_ext. intros q _. unfold at_key. cbn [fst snd]. destruct (P2 _ _); reflexivity.
Qed.
Lemma evs_new1 : forall n k, (n < length D)%nat -> news d1 d2 k (evs n) = newc k n.
Proof.
  intros n k Hn. unfold evs, newc. destruct (usableb D n) eqn:U; [|reflexivity]. unfold news, evs1. rewrite sumf_map. unfold gcount, gocc. rewrite sumf_filter. apply sumf_ext. intros q Hq. unfold at_key. cbn [fst snd].
  destruct (P2 _ _); [|reflexivity]. apply wnew_ok; [apply usable_w; assumption|apply newpos, Hq].
Qed.
Lemma evs_key1 : forall n k, (exists e, In e (evs n) /\ fst e = k) <-> usable (pr n) /\ gocc (pr n) k <> [].
Proof.
  intros n k. unfold evs. destruct (usableb D n) eqn:U.
  - assert (Us : usable (pr n)) by (apply len_ok; exact U). unfold evs1, gocc. split.
    + intros (e & He & E). split; [exact Us|]. rewrite in_map_iff in He. destruct He as (q & <- & Hq). cbn in E. intros Z.
      assert (I : In q (filter (fun q => if P2 (kf (pr n) q) k then true else false) (pos_of (pr n)))) by (apply filter_In; split; [exact Hq|]; destruct (P2 _ _); congruence).
      rewrite Z in I. destruct I.
    + intros [_ H]. destruct (filter _ _) as [|q l] eqn:E; [congruence|]. assert (I : In q (q :: l)) by (left; reflexivity). rewrite <- E in I. apply filter_In in I as [I1 I2].
      eexists. split; [apply in_map, I1|]. cbn. destruct (P2 _ _); [assumption|discriminate].
  - split; [intros (e & [] & _)|]. intros [X _]. apply len_ok in X. unfold usableb in U. congruence.
Qed.
Definition all_aux (range : list nat) : nd_aux K1 K2 := fold_left (fill d1 d2) (flat_map evs range) [].
Lemma all_inv : forall range, (forall n, In n range -> (n < length D)%nat) -> aux_inv d1 d2 (all_aux range) (flat_map evs range).
Proof.
  intros range H. apply (fill_all d1 d2 (flat_map evs range) [] []).
  - split; [constructor|intros k; cbn; tauto].
  - induction range as [|n r IH]; cbn; [constructor|]. apply Forall_app. split; [apply evs_good, H; left; reflexivity|apply IH; intros; apply H; right; assumption].
Qed.
Lemma all_curs : forall range k, curs d1 d2 k (flat_map evs range) = sumf (oldc k) range.
Proof. intros range k. induction range as [|n r IH]; [reflexivity|]. cbn [flat_map sumf]. unfold curs in *. rewrite sumf_app, IH. f_equal. apply evs_cur1. Qed.
Lemma all_news : forall range k, (forall n, In n range -> (n < length D)%nat) -> news d1 d2 k (flat_map evs range) = sumf (newc k) range.
Proof.
  intros range k. induction range as [|n r IH]; intros H; [reflexivity|]. cbn [flat_map sumf]. unfold news in *. rewrite sumf_app, IH by (intros; apply H; right; assumption). f_equal. apply evs_new1, H. left; reflexivity.
Qed.
Lemma all_keys : forall range k, (exists e, In e (flat_map evs range) /\ fst e = k) <-> exists n, In n range /\ usable (pr n) /\ gocc (pr n) k <> [].
Proof.
  intros range k. split.
  - intros (e & He & E). apply in_flat_map in He as (n & Hn & He). exists n. split; [exact Hn|]. apply evs_key1. eauto.
  - intros (n & Hn & H). apply evs_key1 in H as (e & He & E). exists e. split; [apply in_flat_map; eauto|exact E].
Qed.
Definition ex' (range : list nat) (n : nat) : option (list (list R)) :=
  if ((if in_dec Nat.eq_dec n range then true else false) && usableb D n)%bool then Some (newm n) else oldm n.
Record holds (T : ndtab K1 K2) (ex : nat -> option (list (list R))) : Prop := {
  h_inv : tab_inv d1 d2 T;
  h_num : forall s t, numv d1 d2 T s t = gcounts ex (s, t);
  h_has : forall s t, getNumer d1 d2 T s t <> None <-> exists n, ex n <> None /\ gocc (pr n) (s, t) <> [] }.
Lemma tab_train : forall T range, holds T oldm -> NoDup range -> (forall n, In n range -> (n < length D)%nat) ->
  holds (nd_update d1 d2 T (all_aux range)) (ex' range).
Proof.
  intros T range Tr ND Hr. pose proof (all_inv range Hr) as Ai. pose proof (all_curs range) as Ec. pose proof (fun k => all_news range k Hr) as En. pose proof (all_keys range) as Ek.
  set (aux := all_aux range) in *. set (ev := flat_map evs range) in *.
  assert (Inc : incl range (seq 0 (length D))) by (intros n Hn; apply in_seq0; auto).
  assert (Cn : forall k, 0 <= sumf (oldc k) range <= gcounts oldm k).
  { intros k. assert (P0 : forall n, 0 <= oldc k n) by (intros n; unfold oldc; destruct (oldm n); [apply gcount_nonneg|lra]). split; [apply sumf_nonneg; auto|].
    apply (sumf_sub (oldc k)); [exact ND|exact Inc|exact P0]. }
  assert (Hu : forall k c n, In (k, (c, n)) aux -> c <> NaN /\ (exists r, n = Fin r) /\ lgexp c <= numv d1 d2 T (fst k) (snd k)).
  { intros k c n Hk. destruct (aux_in d1 d2 _ _ _ _ _ Ai Hk) as (A & B & C & _). split; [exact A|]. split; [exact B|]. rewrite C, Ec, (h_num _ _ Tr). destruct k; apply Cn. }
  destruct (update_all d1 d2 aux T (proj1 Ai) (h_inv _ _ Tr) Hu) as (I2 & V2 & H2).
  assert (V3 : forall s t, numv d1 d2 (nd_update d1 d2 T aux) s t = numv d1 d2 T s t - sumf (oldc (s, t)) range + sumf (newc (s, t)) range).
  { intros s t. rewrite V2. destruct Ai as [W I]. specialize (I (s, t)). destruct (aget P2 (s, t) aux) as [[c n]|].
    - destruct I as (_ & _ & -> & ->). rewrite Ec, En. reflexivity.
    - rewrite <- Ec, <- En. unfold curs, news. rewrite !at_none by exact I. lra. }
  constructor.
  - exact I2.
  - intros s t. rewrite V3, (h_num _ _ Tr). unfold gcounts.
    set (f := fun n => match ex' range n with Some m => gcount (pr n) m (s, t) | None => 0 end).
    change (fun n => match oldm n with Some m => gcount (pr n) m (s, t) | None => 0 end) with (oldc (s, t)).
    rewrite (sumf_change f (oldc (s, t)) range (seq 0 (length D)) ND (seq_NoDup _ _) Inc).
    + f_equal. apply sumf_ext. intros n Hn. unfold f, newc, ex'. destruct (in_dec Nat.eq_dec n range); [|contradiction]. cbn [andb]. destruct (usableb D n) eqn:U; [reflexivity|].
      rewrite (not_usable_old n U). reflexivity.
    + intros n Hn. unfold f, oldc, ex'. destruct (in_dec Nat.eq_dec n range); [contradiction|]. reflexivity.
  - intros s t. rewrite H2, (h_has _ _ Tr). unfold ex'. split.
    + intros [(n & A & B)|(c & n & A & B)].
      * exists n. split; [|exact B]. destruct (_ && _)%bool; [discriminate|exact A].
      * destruct (proj1 (Ek (s, t))) as (n' & I & U & O).
        { destruct Ai as [W I]. specialize (I (s, t)). rewrite A in I. destruct I as (_ & [r Hr'] & _ & Hnn). subst n.
          destruct (existsb (fun e => if P2 (fst e) (s, t) then true else false) ev) eqn:Q.
          - apply existsb_exists in Q as (e & He & Z). exists e. split; [exact He|]. destruct (P2 (fst e) (s, t)); [assumption|discriminate].
          - exfalso. assert (Z : news d1 d2 (s, t) ev = 0).
            { apply at_none. intros e He Eq. assert (Y : existsb (fun e => if P2 (fst e) (s, t) then true else false) ev = true); [|congruence].
              apply existsb_exists. exists e. split; [exact He|]. rewrite Eq. destruct (P2 (s, t) (s, t)); congruence. }
            rewrite Z in Hnn. cbn in Hnn. pose proof (exp_pos r). lra. }
        exists n'. split; [|exact O]. destruct (in_dec Nat.eq_dec n' range); [|contradiction]. apply len_ok in U. unfold usableb. rewrite U. discriminate.
    + intros (n & A & B). destruct (in_dec Nat.eq_dec n range) as [I|I]; cbn [andb] in A; [|left; exists n; auto].
      destruct (usableb D n) eqn:U; [|left; exists n; auto].
      destruct (proj2 (Ek (s, t))) as (e & He & Eq). { exists n. split; [exact I|]. split; [apply len_ok, U|exact B]. }
      destruct Ai as [W Iv]. specialize (Iv (s, t)). destruct (aget P2 (s, t) aux) as [[c m]|]; [|exfalso; exact (Iv e He Eq)].
      destruct Iv as (_ & [r ->] & Cc & _). destruct (lgneqb c (Fin r)) eqn:Q.
      * right. exists c, (Fin r). split; [reflexivity|]. intros ->. cbn in Q. destruct (Req_EM_T r r); congruence.
      * left. assert (X : c = Fin r).
        { destruct c; cbn in Q; try discriminate. destruct (Req_EM_T r0 r); [congruence|discriminate]. }
        subst c. apply (h_has _ _ Tr). intros G. assert (Z : numv d1 d2 T s t = 0) by (unfold numv; rewrite G; reflexivity).
        rewrite (h_num _ _ Tr) in Z. pose proof (Cn (s, t)) as Y. rewrite <- Ec, <- Cc in Y. cbn [lgexp] in Y. pose proof (exp_pos r). lra.
Qed.
Lemma holds_empty : (forall n, oldm n = None) -> holds nd_empty oldm.
Proof.
  intros H. constructor; [apply tab_inv_empty| |].
  - intros s t. unfold gcounts. rewrite (sumf_ext _ (fun _ => 0)); [rewrite sumf_0; reflexivity|]. intros n _. rewrite H. reflexivity.
  - intros s t. split; [intros X; exfalso; apply X; reflexivity|]. intros (n & X & _). rewrite H in X. congruence.
Qed.
Lemma holds_prob : forall T ex s t ts, holds T ex -> NoDup ts -> (forall n t, ex n <> None -> gocc (pr n) (s, t) <> [] -> In t ts) ->
  prob d1 d2 T s t = gcounts ex (s, t) / sumf (fun t => gcounts ex (s, t)) ts.
Proof.
  intros T ex s t ts H ND I. rewrite (prob_rel d1 d2 T s t ts (h_inv _ _ H) ND).
  - rewrite (h_num _ _ H). f_equal. apply sumf_ext. intros; apply (h_num _ _ H).
  - intros t' G. apply (h_has _ _ H) in G as (n & A & B). eauto.
Qed.
Lemma holds_sum1 : forall T ex s t ts, holds T ex -> NoDup ts -> (forall n t, ex n <> None -> gocc (pr n) (s, t) <> [] -> In t ts) ->
  0 < prob d1 d2 T s t -> sumf (prob d1 d2 T s) ts = 1.
Proof.
  intros T ex s t ts H ND I P. rewrite (sumf_ext _ (fun t => gcounts ex (s, t) * / sumf (fun t => gcounts ex (s, t)) ts)) by (intros; apply (holds_prob T ex s _ ts H ND I)).
  rewrite sumf_scal_r. apply Rinv_r. rewrite (holds_prob T ex s t ts H ND I) in P. intros Z. rewrite Z in P. unfold Rdiv in P. rewrite Rinv_0 in P. lra.
Qed.
End TR.
