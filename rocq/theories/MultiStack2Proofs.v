From Coq Require Import ZArith Arith List Bool Lia Sorted Permutation.
From Verif Require Import AMap StackSpec StackModel StackProofs MultiStackProofs.
Import ListNotations.
Open Scope nat_scope.

(** ** pop and removeLast *)
Definition finish (k : cls) (l : list node) (M : mstack) : mstack := if length l =? 0 then set_sorted M (kerase k (sorted M)) else M.
Lemma finish_same : forall k l M, mmax (finish k l M) = mmax M /\ recinfo (finish k l M) = recinfo M /\ sdict (finish k l M) = sdict M /\
  bfirst (finish k l M) = bfirst M /\ next (finish k l M) = next M /\ conts (finish k l M) = conts M.
Proof. intros. unfold finish. destruct (length l =? 0); simpl; repeat split. Qed.
Lemma finish_stk : forall k l M k', stk (finish k l M) k' = stk M k'.
Proof. intros. unfold finish. destruct (length l =? 0); reflexivity. Qed.
Lemma finish_G0 : forall k l M, G0 M -> G0 (finish k l M).
Proof. intros. unfold finish. destruct (length l =? 0); auto. now apply G0_sorted. Qed.
Lemma drop_GS : forall M k i l, GS M -> stk M k <> [] -> GS (finish k l (drop M k i l)).
Proof.
  intros M k i l (S & E) NE. unfold finish. destruct (Nat.eqb_spec (length l) 0) as [Z|Z].
  - split; [cbn [sorted set_sorted]; now apply kerase_sorted|]. intro k'. cbn [sorted set_sorted]. rewrite kerase_in.
    change (stk (set_sorted (drop M k i l) (kerase k (sorted (drop M k i l)))) k') with (stk (drop M k i l) k'). rewrite drop_stk.
    change (sorted (drop M k i l)) with (sorted M). rewrite E. destruct (cls_dec k' k) as [->|N]; [|tauto].
    destruct l; [tauto|discriminate].
  - split; [exact S|]. intro k'. rewrite drop_stk. change (sorted (drop M k i l)) with (sorted M). rewrite E. destruct (cls_dec k' k) as [->|N]; [|tauto].
    split; [|auto]. intros _ ->. simpl in Z. lia.
Qed.
Definition dropped (M : mstack) (k : cls) (n : node) (a b : list node) (M' : mstack) : Prop :=
  stk M k = a ++ n :: b /\ In k (sorted M) /\ exists i sc, aget Nat.eq_dec (hstate (snd n)) (sdict M) = Some (i, sc) /\ M' = finish k (a ++ b) (drop M k i (a ++ b)).
Lemma dropped_ok : forall M k n a b M', G0 M -> GS M -> dropped M k n a b M' -> G0 M' /\ GS M'.
Proof.
  intros M k n a b M' G S (E & Ik & i & sc & D & ->). split.
  - apply finish_G0. eapply drop_ok; eauto.
  - apply drop_GS; auto. rewrite E. destruct a; discriminate.
Qed.
Lemma scan_ok : forall M ks k0 n0, (forall k, In k ks -> stk M k <> []) -> (exists b, stk M k0 = n0 :: b) ->
  exists k n, scan_best M ks (k0, n0) = Some (k, n) /\ (k = k0 \/ In k ks) /\ (exists b, stk M k = n :: b) /\ (nscore n0 <= nscore n)%Z /\
    forall k' m c, In k' ks -> stk M k' = m :: c -> (nscore m <= nscore n)%Z.
Proof.
  induction ks as [|k ks IH]; intros k0 n0 NE B0; simpl.
  - exists k0, n0. split; [reflexivity|]. split; [auto|]. split; [auto|]. split; [lia|]. intros; tauto.
  - destruct (stk M k) as [|m c] eqn:E; [exfalso; exact (NE k (or_introl eq_refl) E)|]. cbn [st_top].
    assert (NE' : forall k1, In k1 ks -> stk M k1 <> []) by (intros; apply NE; simpl; auto).
    cbn [snd]. destruct (Z.ltb_spec (nscore n0) (nscore m)) as [L|L].
    + destruct (IH k m NE' ltac:(eauto)) as (k1 & n1 & H1 & H2 & H3 & H4 & H5). exists k1, n1. split; [exact H1|]. split; [destruct H2; auto|]. split; [exact H3|].
      split; [lia|]. intros k' m' c' [<-|I] E'; [|eauto]. rewrite E in E'. inversion E'; subst. auto.
    + destruct (IH k0 n0 NE' B0) as (k1 & n1 & H1 & H2 & H3 & H4 & H5). exists k1, n1. split; [exact H1|]. split; [destruct H2; auto|]. split; [exact H3|].
      split; [lia|]. intros k' m' c' [<-|I] E'; [|eauto]. rewrite E in E'. inversion E'; subst. lia.
Qed.
Lemma sorted_hd_max : forall l n b m, nsorted l -> l = n :: b -> In m l -> (nscore m <= nscore n)%Z.
Proof.
  intros l n b m S -> I. inversion S; subst. destruct I as [->|I]; [lia|]. rewrite Forall_forall in H2. now apply H2.
Qed.
Lemma sorted_hd_cls : forall k0 r k, StronglySorted cls_lt (k0 :: r) -> In k (k0 :: r) -> k = k0 \/ cls_lt k0 k.
Proof. intros k0 r k S I. inversion S; subst. destruct I as [->|I]; auto. rewrite Forall_forall in H2. auto. Qed.

Lemma pop_ok : forall M, G0 M -> GS M -> sorted M <> [] -> exists k n b M', ms_pop M = Some (snd n, M') /\ dropped M k n [] b M' /\
  (bfirst M = true -> forall k', In k' (sorted M) -> k' = k \/ cls_lt k k') /\
  (bfirst M = false -> forall k' m, In m (stk M k') -> (nscore m <= nscore n)%Z).
Proof.
  intros M G (S & E) NE. unfold ms_pop. destruct (sorted M) as [|k0 r] eqn:Q; [congruence|].
  assert (T0 : exists n0 b0, stk M k0 = n0 :: b0). { destruct (stk M k0) eqn:X; [|eauto]. exfalso. now apply (proj1 (E k0) (or_introl eq_refl)). }
  destruct T0 as (n0 & b0 & E0). rewrite E0. cbn [st_top].
  assert (CH : exists k n b, (if bfirst M then Some (k0, n0) else scan_best M (k0 :: r) (k0, n0)) = Some (k, n) /\ stk M k = n :: b /\ In k (k0 :: r) /\
     (bfirst M = true -> forall k', In k' (k0 :: r) -> k' = k \/ cls_lt k k') /\
     (bfirst M = false -> forall k' m, In m (stk M k') -> (nscore m <= nscore n)%Z)).
  { destruct (bfirst M).
    - exists k0, n0, b0. split; [reflexivity|]. split; [exact E0|]. split; [simpl; auto|]. split; [|discriminate]. intros _ k' I. eapply sorted_hd_cls; eauto.
    - destruct (scan_ok M (k0 :: r) k0 n0) as (k & n & H1 & H2 & (b & H3) & H4 & H5); [intros k I; now apply E|eauto|]. exists k, n, b. split; [exact H1|]. split; [exact H3|].
      split; [destruct H2 as [->|]; simpl; auto|]. split; [discriminate|]. intros _ k' m I. assert (I' : In k' (k0 :: r)) by (apply E; intro X; rewrite X in I; exact I).
      destruct (stk M k') as [|t c] eqn:X; [destruct I|]. pose proof (H5 k' t c I' X). pose proof (sorted_hd_max _ _ _ m (g_sort M G k') X). rewrite X in H0. specialize (H0 I). lia. }
  destruct CH as (k & n & b & H1 & H2 & H3 & H4 & H5). rewrite H1, H2. cbn [st_top].
  destruct (g_sd M G k n) as (i & sc & D); [rewrite H2; simpl; auto|]. unfold eraseRecInfo. rewrite D.
  change (stk (set_rec M (adel Nat.eq_dec i (recinfo M))) k) with (stk M k). rewrite H2. cbn [st_pop].
  exists k, n, b. eexists. split; [reflexivity|]. split; [|split; [exact H4|exact H5]]. split; [exact H2|]. split; [rewrite Q; exact H3|]. exists i, sc. split; [exact D|].
  unfold finish, drop. simpl (length ([] ++ b)). simpl ([] ++ b). destruct (length b =? 0); reflexivity.
Qed.
Lemma removeLast_ok : forall M, G0 M -> GS M -> sorted M <> [] -> exists k n a M', ms_removeLast M = Some M' /\ dropped M k n a [] M' /\
  (bfirst M = true -> forall k', In k' (sorted M) -> k' = k \/ cls_lt k' k) /\
  (bfirst M = false -> forall k', In k' (sorted M) -> k' = k \/ cls_lt k k').
Proof.
  intros M G (S & E) NE. unfold ms_removeLast. destruct (sorted M) as [|k0 r] eqn:Q; [congruence|].
  remember (if bfirst M then last (k0 :: r) k0 else k0) as k eqn:EK.
  assert (Ik : In k (k0 :: r)). { subst k. destruct (bfirst M); [|simpl; auto]. destruct (exists_last NE) as (l' & x & ->). rewrite last_last. apply in_elt. }
  assert (NEk : stk M k <> []) by now apply E.
  destruct (length_snoc _ NEk) as (a & n & En). rewrite En. rewrite st_last_some.
  destruct (g_sd M G k n) as (i & sc & D); [rewrite En; apply in_elt|]. unfold eraseRecInfo. rewrite D.
  change (stk (set_rec M (adel Nat.eq_dec i (recinfo M))) k) with (stk M k). rewrite En. unfold st_removeLast. rewrite List.removelast_last.
  exists k, n, a. eexists. split; [reflexivity|]. split; [|split].
  - split; [exact En|]. split; [rewrite Q; exact Ik|]. exists i, sc. split; [exact D|]. unfold finish, drop. rewrite app_nil_r. destruct (length a =? 0); reflexivity.
  - intros B k' I. rewrite B in EK. destruct (exists_last NE) as (l' & x & X). rewrite X in *. rewrite last_last in EK. subst x.
    apply in_app_iff in I. destruct I as [I|[<-|[]]]; auto. right. apply SS_app in S. destruct S as (_ & _ & S). apply S; simpl; auto.
  - intros B k' I. rewrite B in EK. subst k. eapply sorted_hd_cls; eauto.
Qed.
Lemma empty_iff : forall M, ms_isempty M = true <-> sorted M = [].
Proof. intros. unfold ms_isempty. destruct (sorted M); intuition discriminate. Qed.

(** ** stored *)
Lemma aget_cons : forall K V (d : forall x y : K, {x = y} + {x <> y}) k k' v (l : list (K * V)), aget d k ((k', v) :: l) = if d k k' then Some v else aget d k l.
Proof. reflexivity. Qed.
Lemma stored_in : forall M h, G0 M -> (In h (stored M) <-> exists k n, In n (stk M k) /\ snd n = h).
Proof.
  intros M h G. unfold stored, stk, substack. pose proof (g_wf M G) as W. rewrite in_flat_map. split.
  - intros ((k, l) & I & J). simpl in J. apply in_map_iff in J. destruct J as (n & E & J). exists k, n. split; auto.
    assert (X : aget cls_dec k (conts M) = Some l) by (now apply aget_in). now rewrite X.
  - intros (k & n & I & <-). destruct (aget cls_dec k (conts M)) as [l|] eqn:X; [|destruct I]. exists (k, l). split; [eapply aget_some_in; exact X|]. simpl. now apply in_map.
Qed.
Lemma flat_perm_aset : forall k (l l' : list node) c n, awf c -> aget cls_dec k c = Some l -> Permutation (map snd l) (n :: map snd l') ->
  Permutation (flat_map (fun e => map snd (snd e)) c) (n :: flat_map (fun e : cls * list node => map (@snd nat hyp) (snd e)) (aset cls_dec k l' c)).
Proof.
  induction c as [|(k1, l1) c IH]; intros n W E P; simpl in E; [discriminate|]. simpl. destruct (cls_dec k k1) as [->|N].
  - inversion E; subst. cbn [flat_map snd]. change (n :: map snd l' ++ ?x) with ((n :: map snd l') ++ x). now apply Permutation_app_tail.
  - cbn [flat_map snd]. inversion W; subst. eapply perm_trans; [apply Permutation_app_head, (IH n); auto|]. apply Permutation_sym, Permutation_middle.
Qed.
Lemma stk_get : forall M k, stk M k <> [] -> aget cls_dec k (conts M) = Some (stk M k).
Proof. intros M k H. unfold stk, substack in *. destruct (aget cls_dec k (conts M)); congruence. Qed.
Lemma dropped_stored : forall M k n a b M', G0 M -> dropped M k n a b M' -> Permutation (stored M) (snd n :: stored M').
Proof.
  intros M k n a b M' G (E & Ik & i & sc & D & ->). unfold stored. destruct (finish_same k (a ++ b) (drop M k i (a ++ b))) as (_ & _ & _ & _ & _ & ->).
  unfold drop, put_stk, set_conts, set_rec. cbn [conts]. apply (flat_perm_aset k (a ++ n :: b)).
  - apply (g_wf M G).
  - rewrite <- E. apply stk_get. rewrite E. destruct a; discriminate.
  - rewrite !map_app. simpl. apply Permutation_sym, Permutation_middle.
Qed.

(** ** reachable states *)
Lemma G0_empty : forall max, G0 (ms_empty max) /\ GS (ms_empty max).
Proof.
  intro max. assert (SE : forall k, stk (ms_empty max) k = []) by reflexivity. split.
  - constructor; try (intros k n Hn; rewrite SE in Hn; destruct Hn); try (intro k; rewrite SE).
    + constructor.
    + constructor.
    + apply dict_nil_ok.
    + constructor.
    + apply Nat.le_0_l.
    + constructor.
    + intros i k id H. discriminate.
  - split; [constructor|]. intro k. rewrite SE. simpl. tauto.
Qed.
Lemma step_ok : forall M o, G0 M -> GS M -> mmax M <> 0 -> exists M', ms_step M o = Some M' /\ G0 M' /\ GS M' /\ mmax M' = mmax M.
Proof.
  intros M o G S MX. destruct o as [h| | |b]; simpl.
  - destruct (push_ok M h G S MX) as (b & M' & E & G' & S' & O & _). rewrite E. simpl. eauto.
  - destruct (ms_isempty M) eqn:E; [exists M; auto|]. assert (NE : sorted M <> []) by (intro X; apply empty_iff in X; congruence).
    destruct (pop_ok M G S NE) as (k & n & b & M' & P & Dr & _). rewrite P. simpl. exists M'. destruct (dropped_ok _ _ _ _ _ _ G S Dr). split; [auto|]. split; [auto|]. split; [auto|].
    destruct Dr as (_ & _ & i & sc & _ & ->). now destruct (finish_same k ([] ++ b) (drop M k i ([] ++ b))) as (-> & _).
  - destruct (ms_isempty M) eqn:E; [exists M; auto|]. assert (NE : sorted M <> []) by (intro X; apply empty_iff in X; congruence).
    destruct (removeLast_ok M G S NE) as (k & n & a & M' & P & Dr & _). rewrite P. simpl. exists M'. destruct (dropped_ok _ _ _ _ _ _ G S Dr). split; [auto|]. split; [auto|]. split; [auto|].
    destruct Dr as (_ & _ & i & sc & _ & ->). now destruct (finish_same k (a ++ []) (drop M k i (a ++ []))) as (-> & _).
  - exists (set_bf b M). split; [reflexivity|]. split; [now apply G0_bf|]. split; [exact S|reflexivity].
Qed.
Lemma run_ok : forall ops M, G0 M -> GS M -> mmax M <> 0 -> exists M', ms_run ops M = Some M' /\ G0 M' /\ GS M' /\ mmax M' = mmax M.
Proof.
  induction ops as [|o ops IH]; intros M G S MX; simpl; [exists M; auto|].
  destruct (step_ok M o G S MX) as (M1 & -> & G1 & S1 & X1). destruct (IH M1 G1 S1 ltac:(congruence)) as (M2 & H1 & H2 & H3 & H4).
  exists M2. split; [auto|]. split; [auto|]. split; [auto|]. congruence.
Qed.
Lemma run_app : forall o1 o2 M, ms_run (o1 ++ o2) M = match ms_run o1 M with Some M' => ms_run o2 M' | None => None end.
Proof. induction o1 as [|o o1 IH]; intros; simpl; auto. destruct (ms_step M o); auto. Qed.
Lemma pushed_app : forall o1 o2, pushed (o1 ++ o2) = pushed o1 ++ pushed o2.
Proof. induction o1 as [|[] o1 IH]; intros; simpl; auto. now rewrite IH. Qed.
