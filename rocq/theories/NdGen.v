(** One training pass on a parameter table with arbitrary keys, positions and expectations: kf n q is the key counted at the position q of the
    sentence pair n, val n x q the amount counted there when the expectations of the pair are x. *)
From Coq Require Import Reals NArith Arith List Bool Lra Lia.
From Verif Require Import AMap MathModel LogNum LogNumProofs RSums Ibm1Spec Ibm1Model Ibm1TrainProofs Ibm2Model NdProofs.
Import ListNotations.
Open Scope R_scope.
Section TR.
Context {K1 K2 XE PO : Type}.
Variable d1 : forall a b : K1, {a = b} + {a <> b}.
Variable d2 : forall a b : K2, {a = b} + {a <> b}.
Variable len : nat.
Variable us : nat -> bool.
Variable pos : nat -> list PO.
Variable kf : nat -> PO -> K1 * K2.
Variable val : nat -> XE -> PO -> R.
Variable wl : nat -> XE -> PO -> lg.
Variable good : nat -> XE -> Prop.
Hypothesis val_pos : forall n x q, (n < len)%nat -> us n = true -> 0 < val n x q.
Hypothesis wl_ok : forall n x q, (n < len)%nat -> us n = true -> good n x -> In q (pos n) -> (exists r, wl n x q = Fin r) /\ lgexp (wl n x q) = val n x q.
Notation P2 := (pd d1 d2).
Definition gnocc (n : nat) (k : K1 * K2) : list PO := filter (fun q => if P2 (kf n q) k then true else false) (pos n).
Definition gncount (n : nat) (x : XE) (k : K1 * K2) : R := sumf (val n x) (gnocc n k).
Definition gncounts (ex : nat -> option XE) (k : K1 * K2) : R := sumf (fun n => match ex n with Some x => gncount n x k | None => 0 end) (seq 0 len).
Definition gcur (n : nat) (o : option XE) (q : PO) : lg := match o with Some x => wl n x q | None => LZ end.
Definition gevs1 (n : nat) (old : option XE) (new : XE) : list ((K1 * K2) * (lg * lg)) := map (fun q => (kf n q, (gcur n old q, wl n new q))) (pos n).
Variable oldm : nat -> option XE.
Variable newm : nat -> XE.
Hypothesis newgood : forall n, (n < len)%nat -> us n = true -> good n (newm n).
Hypothesis old_ok : forall n x, oldm n = Some x -> (n < len)%nat /\ us n = true /\ good n x.
Definition gevs (n : nat) := if us n then gevs1 n (oldm n) (newm n) else [].
Lemma gcount_nonneg : forall n x k, (n < len)%nat -> us n = true -> 0 <= gncount n x k.
Proof. intros. apply sumf_nonneg. intros q _. left. apply val_pos; assumption. Qed.
Lemma gevs_good : forall n, (n < len)%nat -> Forall ok_ev (gevs n).
Proof.
  intros n Hn. unfold gevs. destruct (us n) eqn:U; [|constructor]. rewrite Forall_forall. intros e He. unfold gevs1 in He. rewrite in_map_iff in He. destruct He as (q & <- & Hq).
  split; cbn [fst snd].
  - unfold gcur. destruct (oldm n) as [x|] eqn:O; [|discriminate]. destruct (old_ok n x O) as (_ & _ & G). destruct (wl_ok n x q Hn U G Hq) as [[r ->] _]. discriminate.
  - apply wl_ok; auto.
Qed.
Definition oldc (k : K1 * K2) (n : nat) : R := match oldm n with Some m => gncount n m k | None => 0 end.
Definition newc (k : K1 * K2) (n : nat) : R := if us n then gncount n (newm n) k else 0.
Lemma not_usable_old : forall n, us n = false -> oldm n = None.
Proof. intros n U. destruct (oldm n) eqn:Z; [|reflexivity]. exfalso. destruct (old_ok n x Z) as (_ & W & _). congruence. Qed.
Lemma evs_cur1 : forall n k, (n < len)%nat -> curs d1 d2 k (gevs n) = oldc k n.
Proof.
  intros n k Hn. unfold gevs, oldc. destruct (us n) eqn:U; [|rewrite (not_usable_old n U); reflexivity]. unfold curs, gevs1. rewrite sumf_map. destruct (oldm n) as [m|] eqn:O.
  - destruct (old_ok n m O) as (_ & _ & G). unfold gncount, gnocc. rewrite sumf_filter. apply sumf_ext. intros q Hq. unfold at_key. cbn [fst snd]. destruct (P2 _ _); [apply wl_ok; assumption|reflexivity].
  - transitivity (sumf (fun _ : PO => 0) (pos n)); [|apply sumf_0]. apply sumf_ext. intros q _. unfold at_key. cbn [fst snd]. destruct (P2 _ _); reflexivity.
Qed.
Lemma evs_new1 : forall n k, (n < len)%nat -> news d1 d2 k (gevs n) = newc k n.
Proof.
  intros n k Hn. unfold gevs, newc. destruct (us n) eqn:U; [|reflexivity]. unfold news, gevs1. rewrite sumf_map. unfold gncount, gnocc. rewrite sumf_filter. apply sumf_ext. intros q Hq. unfold at_key. cbn [fst snd].
  destruct (P2 _ _); [|reflexivity]. apply wl_ok; auto.
Qed.
Lemma evs_key1 : forall n k, (exists e, In e (gevs n) /\ fst e = k) <-> us n = true /\ gnocc n k <> [].
Proof.
  intros n k. unfold gevs. destruct (us n) eqn:U.
  - unfold gevs1, gnocc. split.
    + intros (e & He & E). split; [reflexivity|]. rewrite in_map_iff in He. destruct He as (q & <- & Hq). cbn in E. intros Z.
      assert (I : In q (filter (fun q => if P2 (kf n q) k then true else false) (pos n))) by (apply filter_In; split; [exact Hq|]; destruct (P2 _ _); congruence).
      rewrite Z in I. destruct I.
    + intros [_ H]. destruct (filter _ _) as [|q l] eqn:E; [congruence|]. assert (I : In q (q :: l)) by (left; reflexivity). rewrite <- E in I. apply filter_In in I as [I1 I2].
      eexists. split; [apply in_map, I1|]. cbn. destruct (P2 _ _); [assumption|discriminate].
  - split; [intros (e & [] & _)|]. intros [Z _]. congruence.
Qed.
Definition gall_aux (range : list nat) : nd_aux K1 K2 := fold_left (fill d1 d2) (flat_map gevs range) [].
Lemma all_inv : forall range, (forall n, In n range -> (n < len)%nat) -> aux_inv d1 d2 (gall_aux range) (flat_map gevs range).
Proof.
  intros range H. apply (fill_all d1 d2 (flat_map gevs range) [] []).
  - split; [constructor|intros k; cbn; tauto].
  - induction range as [|n r IH]; cbn; [constructor|]. apply Forall_app. split; [apply gevs_good, H; left; reflexivity|apply IH; intros; apply H; right; assumption].
Qed.
Lemma all_curs : forall range k, (forall n, In n range -> (n < len)%nat) -> curs d1 d2 k (flat_map gevs range) = sumf (oldc k) range.
Proof.
  intros range k. induction range as [|n r IH]; intros H; [reflexivity|]. cbn [flat_map sumf]. unfold curs in *. rewrite sumf_app, IH by (intros; apply H; right; assumption). f_equal. apply evs_cur1, H. left; reflexivity.
Qed.
Lemma all_news : forall range k, (forall n, In n range -> (n < len)%nat) -> news d1 d2 k (flat_map gevs range) = sumf (newc k) range.
Proof.
  intros range k. induction range as [|n r IH]; intros H; [reflexivity|]. cbn [flat_map sumf]. unfold news in *. rewrite sumf_app, IH by (intros; apply H; right; assumption). f_equal. apply evs_new1, H. left; reflexivity.
Qed.
Lemma all_keys : forall range k, (exists e, In e (flat_map gevs range) /\ fst e = k) <-> exists n, In n range /\ us n = true /\ gnocc n k <> [].
Proof.
  intros range k. split.
  - intros (e & He & E). apply in_flat_map in He as (n & Hn & He). exists n. split; [exact Hn|]. apply evs_key1. eauto.
  - intros (n & Hn & H). apply evs_key1 in H as (e & He & E). exists e. split; [apply in_flat_map; eauto|exact E].
Qed.
Definition gex' (range : list nat) (n : nat) : option XE :=
  if ((if in_dec Nat.eq_dec n range then true else false) && us n)%bool then Some (newm n) else oldm n.
Record gholds (T : ndtab K1 K2) (ex : nat -> option XE) : Prop := {
  g_inv : tab_inv d1 d2 T;
  g_num : forall s t, numv d1 d2 T s t = gncounts ex (s, t);
  g_has : forall s t, getNumer d1 d2 T s t <> None <-> exists n, ex n <> None /\ gnocc n (s, t) <> [] }.
Lemma gtab_train : forall T range, gholds T oldm -> NoDup range -> (forall n, In n range -> (n < len)%nat) ->
  gholds (nd_update d1 d2 T (gall_aux range)) (gex' range).
Proof.
  intros T range Tr ND Hr. pose proof (all_inv range Hr) as Ai. pose proof (fun k => all_curs range k Hr) as Ec. pose proof (fun k => all_news range k Hr) as En. pose proof (all_keys range) as Ek.
  set (aux := gall_aux range) in *. set (ev := flat_map gevs range) in *.
  assert (Inc : incl range (seq 0 (len))) by (intros n Hn; apply in_seq0; auto).
  assert (Cn : forall k, 0 <= sumf (oldc k) range <= gncounts oldm k).
  { intros k. assert (P0 : forall n, 0 <= oldc k n) by (intros n; unfold oldc; destruct (oldm n) as [m|] eqn:O; [destruct (old_ok n m O) as (A & B & _); apply gcount_nonneg; assumption|lra]). split; [apply sumf_nonneg; auto|].
    apply (sumf_sub (oldc k)); [exact ND|exact Inc|exact P0]. }
  assert (Hu : forall k c n, In (k, (c, n)) aux -> c <> NaN /\ (exists r, n = Fin r) /\ lgexp c <= numv d1 d2 T (fst k) (snd k)).
  { intros k c n Hk. destruct (aux_in d1 d2 _ _ _ _ _ Ai Hk) as (A & B & C & _). split; [exact A|]. split; [exact B|]. rewrite C, Ec, (g_num _ _ Tr). destruct k; apply Cn. }
  destruct (update_all d1 d2 aux T (proj1 Ai) (g_inv _ _ Tr) Hu) as (I2 & V2 & H2).
  assert (V3 : forall s t, numv d1 d2 (nd_update d1 d2 T aux) s t = numv d1 d2 T s t - sumf (oldc (s, t)) range + sumf (newc (s, t)) range).
  { intros s t. rewrite V2. destruct Ai as [W I]. specialize (I (s, t)). destruct (aget P2 (s, t) aux) as [[c n]|].
    - destruct I as (_ & _ & -> & ->). rewrite Ec, En. reflexivity.
    - rewrite <- Ec, <- En. unfold curs, news. rewrite !at_none by exact I. lra. }
  constructor.
  - exact I2.
  - intros s t. rewrite V3, (g_num _ _ Tr). unfold gncounts.
    set (f := fun n => match gex' range n with Some m => gncount n m (s, t) | None => 0 end).
    change (fun n => match oldm n with Some m => gncount n m (s, t) | None => 0 end) with (oldc (s, t)).
    rewrite (sumf_change f (oldc (s, t)) range (seq 0 (len)) ND (seq_NoDup _ _) Inc).
    + f_equal. apply sumf_ext. intros n Hn. unfold f, newc, gex'. destruct (in_dec Nat.eq_dec n range); [|contradiction]. cbn [andb]. destruct (us n) eqn:U; [reflexivity|].
      rewrite (not_usable_old n U). reflexivity.
    + intros n Hn. unfold f, oldc, gex'. destruct (in_dec Nat.eq_dec n range); [contradiction|]. reflexivity.
  - intros s t. rewrite H2, (g_has _ _ Tr). unfold gex'. split.
    + intros [(n & A & B)|(c & n & A & B)].
      * exists n. split; [|exact B]. destruct (_ && _)%bool; [discriminate|exact A].
      * destruct (proj1 (Ek (s, t))) as (n' & I & U & O).
        { destruct Ai as [W I]. specialize (I (s, t)). rewrite A in I. destruct I as (_ & [r Hr'] & _ & Hnn). subst n.
          destruct (existsb (fun e => if P2 (fst e) (s, t) then true else false) ev) eqn:Q.
          - apply existsb_exists in Q as (e & He & Z). exists e. split; [exact He|]. destruct (P2 (fst e) (s, t)); [assumption|discriminate].
          - exfalso. assert (Z : news d1 d2 (s, t) ev = 0).
            { apply at_none. intros e He Eq. assert (Y : existsb (fun e => if P2 (fst e) (s, t) then true else false) ev = true); [|congruence].
              apply existsb_exists. exists e. split; [exact He|]. rewrite Eq. destruct (P2 (s, t) (s, t)); congruence. }
            rewrite Z in Hnn. cbn in Hnn. pose proof (exp_pos r). lra. }
        exists n'. split; [|exact O]. destruct (in_dec Nat.eq_dec n' range); [|contradiction]. rewrite U. discriminate.
    + intros (n & A & B). destruct (in_dec Nat.eq_dec n range) as [I|I]; cbn [andb] in A; [|left; exists n; auto].
      destruct (us n) eqn:U; [|left; exists n; auto].
      destruct (proj2 (Ek (s, t))) as (e & He & Eq). { exists n. split; [exact I|]. split; [exact U|exact B]. }
      destruct Ai as [W Iv]. specialize (Iv (s, t)). destruct (aget P2 (s, t) aux) as [[c m]|]; [|exfalso; exact (Iv e He Eq)].
      destruct Iv as (_ & [r ->] & Cc & _). destruct (lgneqb c (Fin r)) eqn:Q.
      * right. exists c, (Fin r). split; [reflexivity|]. intros ->. cbn in Q. destruct (Req_EM_T r r); congruence.
      * left. assert (X : c = Fin r).
        { destruct c; cbn in Q; try discriminate. destruct (Req_EM_T r0 r); [congruence|discriminate]. }
        subst c. apply (g_has _ _ Tr). intros G. assert (Z : numv d1 d2 T s t = 0) by (unfold numv; rewrite G; reflexivity).
        rewrite (g_num _ _ Tr) in Z. pose proof (Cn (s, t)) as Y. rewrite <- Ec, <- Cc in Y. cbn [lgexp] in Y. pose proof (exp_pos r). lra.
Qed.
Lemma gholds_empty : (forall n, oldm n = None) -> gholds nd_empty oldm.
Proof.
  intros H. constructor; [apply tab_inv_empty| |].
  - intros s t. unfold gncounts. rewrite (sumf_ext _ (fun _ => 0)); [rewrite sumf_0; reflexivity|]. intros n _. rewrite H. reflexivity.
  - intros s t. split; [intros X; exfalso; apply X; reflexivity|]. intros (n & X & _). rewrite H in X. congruence.
Qed.
Lemma gholds_prob : forall T ex s t ts, gholds T ex -> NoDup ts -> (forall n t, ex n <> None -> gnocc n (s, t) <> [] -> In t ts) ->
  prob d1 d2 T s t = gncounts ex (s, t) / sumf (fun t => gncounts ex (s, t)) ts.
Proof.
  intros T ex s t ts H ND I. rewrite (prob_rel d1 d2 T s t ts (g_inv _ _ H) ND).
  - rewrite (g_num _ _ H). f_equal. apply sumf_ext. intros; apply (g_num _ _ H).
  - intros t' G. apply (g_has _ _ H) in G as (n & A & B). eauto.
Qed.
Lemma gholds_sum1 : forall T ex s t ts, gholds T ex -> NoDup ts -> (forall n t, ex n <> None -> gnocc n (s, t) <> [] -> In t ts) ->
  0 < prob d1 d2 T s t -> sumf (prob d1 d2 T s) ts = 1.
Proof.
  intros T ex s t ts H ND I P. rewrite (sumf_ext _ (fun t => gncounts ex (s, t) * / sumf (fun t => gncounts ex (s, t)) ts)) by (intros; apply (gholds_prob T ex s _ ts H ND I)).
  rewrite sumf_scal_r. apply Rinv_r. rewrite (gholds_prob T ex s t ts H ND I) in P. intros Z. rewrite Z in P. unfold Rdiv in P. rewrite Rinv_0 in P. lra.
Qed.
End TR.
