From Coq Require Import ZArith Arith List Bool Lia Sorted Permutation.
From Verif Require Import AMap StackSpec StackModel StackProofs.
Import ListNotations.
Open Scope nat_scope.

Lemma stk_put : forall M k l k', stk (put_stk M k l) k' = if cls_dec k' k then l else stk M k'.
Proof. intros. unfold stk, substack, put_stk. simpl. rewrite aget_aset. destruct (cls_dec k' k); auto. Qed.

Record G0 (M : mstack) : Prop := {
  g_wf : awf (conts M);
  g_rwf : awf (recinfo M);
  g_dict : dict_ok (sdict M);
  g_sort : forall k, nsorted (stk M k);
  g_len : forall k, length (stk M k) <= mmax M;
  g_cls : forall k n, In n (stk M k) -> hclass (snd n) = k;
  g_next : forall k n, In n (stk M k) -> fst n < next M;
  g_sd : forall k n, In n (stk M k) -> exists i sc, aget Nat.eq_dec (hstate (snd n)) (sdict M) = Some (i, sc);
  g_ids : forall k, NoDup (map fst (stk M k));
  g_rec : forall i k id, aget Nat.eq_dec i (recinfo M) = Some (k, id) ->
    exists n, In n (stk M k) /\ fst n = id /\ exists sc, aget Nat.eq_dec (hstate (snd n)) (sdict M) = Some (i, sc)
}.
Definition GS (M : mstack) : Prop := StronglySorted cls_lt (sorted M) /\ forall k, In k (sorted M) <-> stk M k <> [].

(** ** sub-sequences *)
Lemma erase_split : forall id l l1, st_erase id l = Some l1 -> exists a n b, l = a ++ n :: b /\ l1 = a ++ b /\ fst n = id.
Proof.
  induction l as [|m l IH]; intros l1 H; simpl in H; [discriminate|]. destruct (Nat.eqb_spec (fst m) id) as [E|E].
  - inversion H; subst. exists [], m, l1. auto.
  - destruct (st_erase id l) as [l2|] eqn:Q; [|discriminate]. inversion H; subst. destruct (IH l2 eq_refl) as (a & n & b & -> & -> & F).
    exists (m :: a), n, b. auto.
Qed.
Lemma erase_ok : forall id l, In id (map fst l) -> exists l1, st_erase id l = Some l1.
Proof.
  induction l as [|m l IH]; simpl; [tauto|]. intro H. destruct (Nat.eqb_spec (fst m) id); [eauto|]. destruct H as [H|H]; [contradiction|].
  destruct (IH H) as (l1 & ->). simpl. eauto.
Qed.
Lemma SS_remove : forall A (R : A -> A -> Prop) a x b, StronglySorted R (a ++ x :: b) -> StronglySorted R (a ++ b).
Proof.
  intros A R a x b H. apply SS_app in H. destruct H as (H1 & H2 & H3). inversion H2; subst. apply SS_app. split; [auto|]. split; [auto|].
  intros; apply H3; simpl; auto.
Qed.
Lemma nodup_ids : forall l n m, NoDup (map fst l) -> In n l -> In m l -> fst n = fst m -> n = (m : node).
Proof.
  induction l as [|x l IH]; simpl; intros n m ND In1 In2 E; [tauto|]. inversion ND; subst. destruct In1 as [->|In1], In2 as [->|In2]; auto.
  - exfalso. apply H1. rewrite E. now apply in_map.
  - exfalso. apply H1. rewrite <- E. now apply in_map.
Qed.
Lemma nodup_mid : forall (a : list node) n b, NoDup (map fst (a ++ n :: b)) -> NoDup (map fst (a ++ b)) /\ (forall m, In m (a ++ b) -> fst m <> fst n).
Proof.
  intros a n b H. rewrite map_app in H. simpl in H. split.
  - rewrite map_app. apply NoDup_remove_1 in H. auto.
  - intros m I E. apply NoDup_remove_2 in H. apply H. rewrite <- map_app. rewrite <- E. now apply in_map.
Qed.
Lemma in_mid : forall A (a : list A) n b m, In m (a ++ b) -> In m (a ++ n :: b).
Proof. intros. apply in_app_iff in H. apply in_app_iff. simpl. tauto. Qed.
Lemma in_mid_other : forall A (a : list A) n b m, In m (a ++ n :: b) -> m <> n -> In m (a ++ b).
Proof. intros A a n b m H N. apply in_app_iff in H. apply in_app_iff. simpl in H. destruct H as [H|[H|H]]; [auto|congruence|auto]. Qed.

(** ** removing one node together with the pointer of its state *)
Definition drop (M : mstack) (k : cls) (i : nat) (l : list node) : mstack := put_stk (set_rec M (adel Nat.eq_dec i (recinfo M))) k l.
Lemma drop_stk : forall M k i l k', stk (drop M k i l) k' = if cls_dec k' k then l else stk M k'.
Proof. intros. unfold drop. rewrite stk_put. reflexivity. Qed.
Lemma drop_ok : forall M k n a b i sc, G0 M -> stk M k = a ++ n :: b -> aget Nat.eq_dec (hstate (snd n)) (sdict M) = Some (i, sc) -> G0 (drop M k i (a ++ b)).
Proof.
  intros M k n a b i sc G E D. destruct G as [g1 g2 g3 g4 g5 g6 g7 g8 g9 g10].
  assert (SUB : forall k' m, In m (stk (drop M k i (a ++ b)) k') -> In m (stk M k')).
  { intros k' m. rewrite drop_stk. destruct (cls_dec k' k); auto. subst. rewrite E. apply in_mid. }
  constructor.
  - unfold drop, put_stk, set_conts, set_rec. simpl. now apply aset_wf.
  - simpl. now apply adel_wf.
  - exact g3.
  - intro k'. rewrite drop_stk. destruct (cls_dec k' k); auto. specialize (g4 k). rewrite E in g4. eapply SS_remove; eauto.
  - intro k'. rewrite drop_stk. destruct (cls_dec k' k); [|apply g5]. specialize (g5 k). rewrite E in g5. simpl. rewrite app_length in *. simpl in g5. lia.
  - intros k' m I. apply g6. auto.
  - intros k' m I. eapply g7. eauto.
  - intros k' m I. eapply g8. eauto.
  - intro k'. rewrite drop_stk. destruct (cls_dec k' k); auto. specialize (g9 k). rewrite E in g9. now apply nodup_mid in g9.
  - intros i0 k0 id0 H. simpl in H. rewrite aget_adel in H by auto. destruct (Nat.eq_dec i0 i) as [|N]; [discriminate|].
    destruct (g10 _ _ _ H) as (m & Im & Em & s0 & Dm). exists m. split; [|split; [exact Em|exists s0; exact Dm]].
    rewrite drop_stk. destruct (cls_dec k0 k); auto. subst k0. rewrite E in Im. apply in_mid_other with (n := n); auto.
    intro X. subst m. rewrite D in Dm. congruence.
Qed.

(** ** what pushOnSmtStackIdx does *)
Definition inserted (M : mstack) (k : cls) (h : hyp) (idx : nat) (M' : mstack) : Prop :=
  exists l1, ((forall id', aget Nat.eq_dec idx (recinfo M) <> Some (k, id')) /\ l1 = stk M k \/
              exists id', aget Nat.eq_dec idx (recinfo M) = Some (k, id') /\ st_erase id' (stk M k) = Some l1) /\
    ((length l1 < mmax M /\ stk M' k = ms_insert (next M, h) l1 /\
      forall i, aget Nat.eq_dec i (recinfo M') = if Nat.eq_dec i idx then Some (k, next M) else aget Nat.eq_dec i (recinfo M)) \/
     (exists r m im sm, l1 = r ++ [m] /\ l1 = stk M k /\ stk M' k = ms_insert (next M, h) r /\ ((nscore m < hscore h)%Z /\ length l1 = mmax M) /\
        aget Nat.eq_dec (hstate (snd m)) (sdict M) = Some (im, sm) /\
        forall i, aget Nat.eq_dec i (recinfo M') = if Nat.eq_dec i im then None else if Nat.eq_dec i idx then Some (k, next M) else aget Nat.eq_dec i (recinfo M))).
Definition same_frame (M M' : mstack) : Prop :=
  mmax M' = mmax M /\ sdict M' = sdict M /\ sorted M' = sorted M /\ bfirst M' = bfirst M /\ next M' = S (next M) /\ awf (conts M') /\ awf (recinfo M').

Lemma erase_sorted : forall id l l1, nsorted l -> st_erase id l = Some l1 -> nsorted l1.
Proof. intros. apply erase_split in H0. destruct H0 as (a & n & b & -> & -> & _). eapply SS_remove; eauto. Qed.
Lemma erase_length : forall id l l1, st_erase id l = Some l1 -> length l = S (length l1).
Proof. intros. apply erase_split in H. destruct H as (a & n & b & -> & -> & _). rewrite !app_length. simpl. lia. Qed.
Lemma st_last_some : forall l n, st_last (l ++ [n]) = Some n.
Proof. intros. unfold st_last. destruct (l ++ [n]) eqn:E; [destruct l; discriminate|]. rewrite <- E. now rewrite last_last. Qed.
Lemma length_snoc : forall (l : list node), l <> [] -> exists r m, l = r ++ [m].
Proof. intros. destruct (exists_last H) as (r & m & E). eauto. Qed.

Lemma pushIdx_spec : forall M k h idx sc0, G0 M -> mmax M <> 0 -> aget Nat.eq_dec (hstate h) (sdict M) = Some (idx, sc0) ->
  exists b M', pushOnSmtStackIdx k h idx M = Some (b, M') /\ same_frame M M' /\ (forall k', k' <> k -> stk M' k' = stk M k') /\
    ((b = true /\ inserted M k h idx M') \/
     (b = false /\ stk M' k = stk M k /\ recinfo M' = recinfo M /\ (forall id', aget Nat.eq_dec idx (recinfo M) <> Some (k, id')) /\
      length (stk M k) = mmax M)).
Proof.
  intros M k h idx sc0 G MX D. unfold pushOnSmtStackIdx.
  (* the removal step *)
  assert (RM : exists M1 l1, (match aget Nat.eq_dec idx (recinfo M) with
                 | Some (k', id') => if cls_dec k' k then option_map (put_stk M k) (st_erase id' (stk M k)) else Some M
                 | None => Some M end) = Some M1 /\ stk M1 k = l1 /\ (forall k', k' <> k -> stk M1 k' = stk M k') /\
                 mmax M1 = mmax M /\ sdict M1 = sdict M /\ sorted M1 = sorted M /\ bfirst M1 = bfirst M /\ next M1 = next M /\ recinfo M1 = recinfo M /\ awf (conts M1) /\
                 nsorted l1 /\
                 ((forall id', aget Nat.eq_dec idx (recinfo M) <> Some (k, id')) /\ l1 = stk M k \/
                  (exists id', aget Nat.eq_dec idx (recinfo M) = Some (k, id') /\ st_erase id' (stk M k) = Some l1) /\ length l1 < mmax M)).
  { destruct (aget Nat.eq_dec idx (recinfo M)) as [[k' id']|] eqn:E.
    - destruct (cls_dec k' k) as [->|N].
      + destruct (g_rec M G _ _ _ E) as (n & In1 & En & _). destruct (erase_ok id' (stk M k)) as (l1 & E1); [rewrite <- En; now apply in_map|].
        rewrite E1. exists (put_stk M k l1), l1. split; [reflexivity|]. split; [rewrite stk_put; now destruct (cls_dec k k)|].
        split; [intros k' N; rewrite stk_put; now destruct (cls_dec k' k)|]. do 6 (split; [reflexivity|]). split; [apply aset_wf, (g_wf M G)|].
        split; [eapply erase_sorted; [apply (g_sort M G)|eauto]|]. right. split; [eauto|]. apply erase_length in E1. pose proof (g_len M G k). lia.
      + exists M, (stk M k). do 9 (split; [auto|]). split; [apply (g_wf M G)|]. split; [apply (g_sort M G)|]. left. split; [congruence|auto].
    - exists M, (stk M k). do 9 (split; [auto|]). split; [apply (g_wf M G)|]. split; [apply (g_sort M G)|]. left. split; [congruence|auto]. }
  destruct RM as (M1 & l1 & -> & S1 & O1 & X1 & X2 & X3 & X4 & X5 & X6 & X7 & NS & CASE). rewrite S1, X1, X5.
  assert (LE : length l1 <= mmax M) by (destruct CASE as [(_ & ->)|(_ & L)]; [apply (g_len M G)|lia]).
  destruct (push_cases (mmax M) (next M, h) l1 MX NS LE) as [(d & Q1 & Q2 & Q3 & Q4)|[(Q1 & Q2)|(d & Q1 & Q2 & Q3 & Q4)]].
  - (* rejected *)
    rewrite Q4. eexists; eexists. split; [reflexivity|]. split; [unfold same_frame; simpl; rewrite X1, X2, X3, X4, X6; do 5 (split; [reflexivity|]); split; [now apply aset_wf|apply (g_rwf M G)]|].
    split; [intros k' N; change (stk (set_next (put_stk M1 k l1) (S (next M))) k') with (stk (put_stk M1 k l1) k'); rewrite stk_put; destruct (cls_dec k' k); [contradiction|auto]|].
    right. destruct CASE as [(C1 & C2)|(_ & L)]; [|lia]. split; [reflexivity|]. split; [|split; [exact X6|split; [exact C1|congruence]]].
    change (stk (set_next (put_stk M1 k l1) (S (next M))) k) with (stk (put_stk M1 k l1) k). rewrite stk_put. destruct (cls_dec k k); congruence.
  - (* room left *)
    rewrite Q2. rewrite insert_length. destruct (Nat.eqb_spec (length l1) (S (length l1))); [lia|].
    eexists; eexists. split; [reflexivity|]. split; [unfold same_frame; simpl; rewrite X1, X2, X3, X4, X6; do 5 (split; [reflexivity|]); split; [now apply aset_wf|apply aset_wf, (g_rwf M G)]|].
    split; [intros k' N; unfold set_rec, set_next; match goal with |- stk ?m k' = _ => change (stk m k') with (stk (put_stk M1 k (ms_insert (next M, h) l1)) k') end; rewrite stk_put; destruct (cls_dec k' k); [contradiction|auto]|].
    left. split; [reflexivity|]. exists l1. split; [destruct CASE as [C|(C & _)]; auto|]. left. split; [exact Q1|]. split.
    + match goal with |- stk ?m k = _ => change (stk m k) with (stk (put_stk M1 k (ms_insert (next M, h) l1)) k) end. rewrite stk_put. destruct (cls_dec k k); congruence.
    + intro i. simpl. rewrite aget_aset, X6. reflexivity.
  - (* full: the last one goes *)
    rewrite Q4. rewrite insert_length. destruct (length_snoc l1 Q2) as (r & m & E). rewrite E in *. rewrite List.removelast_last, st_last_some.
    rewrite app_length. simpl (length [m]). rewrite Nat.add_1_r, Nat.eqb_refl. rewrite last_last in Q3.
    destruct CASE as [(C1 & C2)|(_ & L)]; [|lia].
    assert (Im : In m (stk M k)) by (rewrite <- C2; apply in_or_app; simpl; auto). destruct (g_sd M G k m Im) as (im & sm & Dm).
    unfold eraseRecInfo. cbn [sdict set_rec set_next put_stk set_conts]. rewrite X2, Dm.
    eexists; eexists. split; [reflexivity|]. split; [unfold same_frame; simpl; rewrite X1, X2, X3, X4, X6; do 5 (split; [reflexivity|]); split; [now apply aset_wf|apply adel_wf, aset_wf, (g_rwf M G)]|].
    split; [intros k' N; unfold set_rec, set_next; match goal with |- stk ?m k' = _ => change (stk m k') with (stk (put_stk M1 k (ms_insert (next M, h) r)) k') end; rewrite stk_put; destruct (cls_dec k' k); [contradiction|auto]|].
    left. split; [reflexivity|]. exists (r ++ [m]). split; [left; auto|]. right. exists r, m, im, sm. split; [reflexivity|]. split; [exact C2|]. split.
    + match goal with |- stk ?m k = _ => change (stk m k) with (stk (put_stk M1 k (ms_insert (next M, h) r)) k) end. rewrite stk_put. destruct (cls_dec k k); congruence.
    + split; [split; [exact Q3|exact Q1]|]. split; [exact Dm|]. intro i. cbn [recinfo set_rec]. rewrite aget_adel by (apply aset_wf; simpl; rewrite X6; apply (g_rwf M G)).
      destruct (Nat.eq_dec i im); auto. rewrite aget_aset. simpl. rewrite X6. reflexivity.
Qed.

(** the stack into which the new node is inserted *)
Lemma inserted_split : forall M k h idx M', inserted M k h idx M' -> exists r, stk M' k = ms_insert (next M, h) r /\
   (forall x, In x r -> In x (stk M k)) /\ (nsorted (stk M k) -> nsorted r) /\ (NoDup (map fst (stk M k)) -> NoDup (map fst r)) /\ length r < S (length (stk M k)).
Proof.
  intros M k h idx M' (l1 & C & [(L & E & _)|(r & m & im & sm & E1 & E2 & E3 & _)]).
  - exists l1. split; [exact E|]. destruct C as [(_ & ->)|(id' & _ & Q)].
    + split; [auto|]. split; [auto|]. split; [auto|]. lia.
    + pose proof (erase_length _ _ _ Q). apply erase_split in Q. destruct Q as (a & n & b & -> & -> & _). split; [intros x; apply in_mid|]. split; [apply SS_remove|]. split; [|rewrite !app_length; simpl; lia].
      intro ND. now apply nodup_mid in ND.
  - exists r. split; [exact E3|]. rewrite <- E2, E1. split; [intros x I; apply in_or_app; auto|]. split; [intro S; apply SS_app in S; tauto|].
    split; [|rewrite app_length; simpl; lia]. rewrite map_app. intro ND. apply NoDup_remove_1 in ND. now rewrite app_nil_r in ND.
Qed.

Lemma inserted_ok : forall M k h idx M' sc0, G0 M -> mmax M <> 0 -> hclass h = k -> aget Nat.eq_dec (hstate h) (sdict M) = Some (idx, sc0) -> same_frame M M' ->
  (forall k', k' <> k -> stk M' k' = stk M k') -> inserted M k h idx M' -> G0 M'.
Proof.
  intros M k h idx M' sc0 G MX HC D (F1 & F2 & F3 & F4 & F5 & F6 & F7) OTH INS.
  destruct (inserted_split _ _ _ _ _ INS) as (r & Er & SUB & SRT & NDr & LEN).
  assert (IN : forall k' m, In m (stk M' k') -> (k' = k /\ m = (next M, h)) \/ In m (stk M k')).
  { intros k' m I. destruct (cls_dec k' k) as [->|N]; [|rewrite OTH in I; auto]. rewrite Er in I. apply insert_in in I. destruct I; auto. }
  destruct G as [g1 g2 g3 g4 g5 g6 g7 g8 g9 g10]. constructor; auto.
  - now rewrite F2.
  - intro k'. destruct (cls_dec k' k) as [->|N]; [|rewrite OTH; auto]. rewrite Er. apply insert_sorted. auto.
  - intro k'. rewrite F1. destruct (cls_dec k' k) as [->|N]; [|rewrite OTH; auto]. rewrite Er, insert_length.
    destruct INS as (l1 & C & [(L & E & _)|(r' & m & im & sm & E1 & E2 & E3 & _)]).
    + rewrite E in Er. apply (f_equal (@length _)) in Er. rewrite !insert_length in Er. lia.
    + rewrite E3 in Er. apply (f_equal (@length _)) in Er. rewrite !insert_length in Er. specialize (g5 k). rewrite <- E2, E1, app_length in g5. simpl in g5. lia.
  - intros k' m I. apply IN in I. destruct I as [(-> & ->)|I]; auto.
  - intros k' m I. rewrite F5. apply IN in I. destruct I as [(-> & ->)|I]; [simpl; lia|]. apply g7 in I. lia.
  - intros k' m I. rewrite F2. apply IN in I. destruct I as [(-> & ->)|I]; [simpl; eauto|eauto].
  - intro k'. destruct (cls_dec k' k) as [->|N]; [|rewrite OTH; auto]. rewrite Er.
    eapply Permutation_NoDup; [apply Permutation_sym, Permutation_map, insert_perm|]. simpl. constructor; auto.
    intro X. apply in_map_iff in X. destruct X as (m & E & I). apply SUB, g7 in I. lia.
  - intros i k0 id0 H. rewrite F2.
    assert (NEW : In (next M, h) (stk M' k)) by (rewrite Er; apply insert_in; auto).
    destruct INS as (l1 & C & [(L & E & RC)|(r' & m & im & sm & E1 & E2 & E3 & LT & Dm & RC)]); rewrite RC in H.
    + destruct (Nat.eq_dec i idx) as [->|N].
      * inversion H; subst. exists (next M, h). simpl. split; [exact NEW|]. split; [reflexivity|]. eauto.
      * destruct (g10 _ _ _ H) as (m & Im & Em & s0 & Ds). exists m. split; [|eauto]. destruct (cls_dec k0 k) as [->|N2]; [|rewrite OTH; auto].
        rewrite E. apply insert_in. right. destruct C as [(_ & ->)|(id' & R & Q)]; auto.
        apply erase_split in Q. destruct Q as (a & n & b & El & -> & En). rewrite El in Im. apply in_mid_other with (n := n); auto. intro X. subst m.
        destruct (g10 _ _ _ R) as (n2 & In2 & En2 & s2 & D2). assert (n2 = n).
        { apply (nodup_ids (stk M k)); auto; [rewrite El; apply in_elt|congruence]. } subst n2. congruence.
    + destruct (Nat.eq_dec i im) as [|N1]; [discriminate|]. destruct (Nat.eq_dec i idx) as [->|N].
      * inversion H; subst. exists (next M, h). simpl. split; [exact NEW|]. split; [reflexivity|]. eauto.
      * destruct (g10 _ _ _ H) as (m' & Im & Em & s0 & Ds). exists m'. split; [|eauto]. destruct (cls_dec k0 k) as [->|N2]; [|rewrite OTH; auto].
        rewrite E3. apply insert_in. right. rewrite <- E2, E1 in Im. apply in_app_iff in Im. destruct Im as [Im|[<-|[]]]; auto. congruence.
Qed.

(** ** dictionary updates *)
Lemma dict_update_ok : forall s i sc0 sc d, dict_ok d -> aget Nat.eq_dec s d = Some (i, sc0) -> dict_ok (aset Nat.eq_dec s (i, sc) d).
Proof.
  intros s i sc0 sc d H E. pose proof (dict_create_ok s sc d H) as X. unfold createDictEntry in X. now rewrite E in X.
Qed.
Lemma set_dict_ok : forall M d, G0 M -> dict_ok d ->
  (forall s i sc, aget Nat.eq_dec s (sdict M) = Some (i, sc) -> exists sc', aget Nat.eq_dec s d = Some (i, sc')) -> G0 (set_dict M d).
Proof.
  intros M d G Dk E. destruct G as [g1 g2 g3 g4 g5 g6 g7 g8 g9 g10]. constructor; auto.
  - intros k n I. destruct (g8 k n I) as (i & sc & H). apply E in H. destruct H as (sc' & H). simpl. eauto.
  - intros i k id H. destruct (g10 _ _ _ H) as (n & A & B & sc & C). exists n. split; [exact A|]. split; [exact B|]. simpl. eapply E; eauto.
Qed.

(** ** pushOnSmtStack *)
Definition dict_after (M : mstack) (h : hyp) : dict := createDictEntry (hstate h) (hscore h) (sdict M).
Definition idx_after (M : mstack) (h : hyp) : nat := match aget Nat.eq_dec (hstate h) (sdict M) with Some (i, _) => i | None => length (sdict M) end.
Lemma push_dec : forall M h, G0 M -> mmax M <> 0 ->
  (exists i sc, aget Nat.eq_dec (hstate h) (sdict M) = Some (i, sc) /\ (hscore h < sc)%Z /\ pushOnSmtStack (hclass h) h M = Some (false, M)) \/
  ((forall i sc, aget Nat.eq_dec (hstate h) (sdict M) = Some (i, sc) -> (sc <= hscore h)%Z) /\
   exists b M', pushOnSmtStack (hclass h) h M = Some (b, M') /\
     let M1 := set_dict M (dict_after M h) in G0 M1 /\ same_frame M1 M' /\ (forall k', k' <> hclass h -> stk M' k' = stk M k') /\
     ((b = true /\ inserted M1 (hclass h) h (idx_after M h) M') \/
      (b = false /\ stk M' (hclass h) = stk M (hclass h) /\ recinfo M' = recinfo M /\ (forall id', aget Nat.eq_dec (idx_after M h) (recinfo M) <> Some (hclass h, id')) /\
       length (stk M (hclass h)) = mmax M))).
Proof.
  intros M h G MX.
  assert (Dk : dict_ok (dict_after M h)) by (apply dict_create_ok, (g_dict M G)).
  assert (G1 : G0 (set_dict M (dict_after M h))).
  { apply set_dict_ok; auto. intros s i sc E. unfold dict_after. rewrite dict_create_get. destruct (Nat.eq_dec s (hstate h)) as [->|]; [rewrite E|]; eauto. }
  assert (E1 : aget Nat.eq_dec (hstate h) (sdict (set_dict M (dict_after M h))) = Some (idx_after M h, hscore h)).
  { simpl. unfold dict_after. rewrite dict_create_get. destruct (Nat.eq_dec (hstate h) (hstate h)); [|congruence]. unfold idx_after. now destruct (aget Nat.eq_dec (hstate h) (sdict M)) as [[? ?]|]. }
  pose proof (pushIdx_spec (set_dict M (dict_after M h)) (hclass h) h (idx_after M h) (hscore h) G1 MX E1) as PS.
  unfold pushOnSmtStack. destruct (aget Nat.eq_dec (hstate h) (sdict M)) as [[i sc]|] eqn:E.
  - destruct (Z.ltb_spec (hscore h) sc) as [L|L].
    + left. exists i, sc. auto.
    + right. split; [intros ? ? Q; inversion Q; subst; auto|].
      assert (DA : dict_after M h = aset Nat.eq_dec (hstate h) (i, hscore h) (sdict M)) by (unfold dict_after, createDictEntry; now rewrite E).
      assert (IA : idx_after M h = i) by (unfold idx_after; now rewrite E). rewrite <- DA. rewrite IA in *.
      destruct PS as (b & M' & P1 & P2 & P3 & P4). exists b, M'. split; [exact P1|]. split; [exact G1|]. split; [exact P2|]. split; [exact P3|].
      destruct P4 as [P4|P4]; [left; exact P4|right; exact P4].
  - right. split; [intros; discriminate|]. assert (IA : idx_after M h = length (sdict M)) by (unfold idx_after; now rewrite E).
    change (createDictEntry (hstate h) (hscore h) (sdict M)) with (dict_after M h). simpl in E1. rewrite E1.
    destruct PS as (b & M' & P1 & P2 & P3 & P4). exists b, M'. split; [exact P1|]. split; [exact G1|]. split; [exact P2|]. split; [exact P3|].
    destruct P4 as [P4|P4]; [left; exact P4|right; exact P4].
Qed.

(** ** the sorted index of non-empty stacks *)
Lemma cls_ltb_lt : forall a b, cls_ltb a b = true <-> cls_lt a b.
Proof.
  intros [a1 a2] [b1 b2]. unfold cls_ltb, cls_lt. simpl. rewrite orb_true_iff, andb_true_iff, !Nat.ltb_lt, Nat.eqb_eq. lia.
Qed.
Lemma cls_trich : forall a b, cls_ltb a b = false -> cls_ltb b a = false -> a = b.
Proof.
  intros [a1 a2] [b1 b2]. unfold cls_ltb. simpl. destruct (Nat.ltb_spec a1 b1), (Nat.ltb_spec b1 a1), (Nat.eqb_spec a1 b1), (Nat.eqb_spec b1 a1),
   (Nat.ltb_spec a2 b2), (Nat.ltb_spec b2 a2); simpl; intros; try discriminate; try lia; f_equal; lia.
Qed.
Lemma cls_trans : forall a b c, cls_lt a b -> cls_lt b c -> cls_lt a c.
Proof. unfold cls_lt. intros. lia. Qed.
Lemma kinsert_in : forall k l x, In x (kinsert k l) <-> x = k \/ In x l.
Proof.
  induction l as [|y l IH]; intro x; simpl; [intuition|]. destruct (cls_ltb k y) eqn:A; simpl; [intuition|].
  destruct (cls_ltb y k) eqn:B; simpl; [rewrite IH; intuition|]. pose proof (cls_trich _ _ A B). subst. intuition.
Qed.
Lemma kinsert_sorted : forall k l, StronglySorted cls_lt l -> StronglySorted cls_lt (kinsert k l).
Proof.
  induction l as [|y l IH]; intro H; simpl; [repeat constructor|]. inversion H; subst. destruct (cls_ltb k y) eqn:A.
  - apply cls_ltb_lt in A. constructor; auto. constructor; auto. eapply Forall_impl; [|exact H3]. intros; eapply cls_trans; eauto.
  - destruct (cls_ltb y k) eqn:B; [|exact H]. constructor; auto. apply Forall_forall. intros x I. apply kinsert_in in I. destruct I as [->|I].
    + now apply cls_ltb_lt.
    + rewrite Forall_forall in H3. auto.
Qed.
Lemma kerase_in : forall k l x, In x (kerase k l) <-> In x l /\ x <> k.
Proof. intros. unfold kerase. rewrite filter_In. destruct (cls_dec x k); intuition discriminate. Qed.
Lemma SS_filter : forall A (R : A -> A -> Prop) f l, StronglySorted R l -> StronglySorted R (filter f l).
Proof.
  induction 1; simpl; [constructor|]. destruct (f a); auto. constructor; auto. apply Forall_forall. intros x I. apply filter_In in I. rewrite Forall_forall in H0. now apply H0.
Qed.
Lemma kerase_sorted : forall k l, StronglySorted cls_lt l -> StronglySorted cls_lt (kerase k l).
Proof. intros. now apply SS_filter. Qed.

(** ** G0 only depends on what it mentions *)
Lemma G0_sorted : forall M s, G0 M -> G0 (set_sorted M s).
Proof. intros M s [g1 g2 g3 g4 g5 g6 g7 g8 g9 g10]. constructor; auto. Qed.
Lemma G0_bf : forall M b, G0 M -> G0 (set_bf b M).
Proof. intros M s [g1 g2 g3 g4 g5 g6 g7 g8 g9 g10]. constructor; auto. Qed.
Lemma G0_next : forall M, G0 M -> forall M', same_frame M M' -> (forall k, stk M' k = stk M k) -> recinfo M' = recinfo M -> G0 M'.
Proof.
  intros M [g1 g2 g3 g4 g5 g6 g7 g8 g9 g10] M' (F1 & F2 & F3 & F4 & F5 & F6 & F7) E R. constructor.
  - exact F6.
  - exact F7.
  - now rewrite F2.
  - intro k. rewrite E. auto.
  - intro k. rewrite E, F1. auto.
  - intros k n. rewrite E. auto.
  - intros k n. rewrite E, F5. intro I. apply g7 in I. lia.
  - intros k n. rewrite E, F2. apply g8.
  - intros k. rewrite E. auto.
  - intros i k id. rewrite R, E, F2. apply g10.
Qed.

(** ** ms_push *)
Definition with_stack (M : mstack) (k : cls) : mstack :=
  match substack M k with Some _ => M | None => set_sorted (put_stk M k []) (kinsert k (sorted M)) end.
Lemma with_stack_stk : forall M k k', stk (with_stack M k) k' = stk M k'.
Proof.
  intros. unfold with_stack. destruct (substack M k) eqn:E; auto.
  change (stk (set_sorted (put_stk M k []) (kinsert k (sorted M))) k') with (stk (put_stk M k []) k'). rewrite stk_put.
  destruct (cls_dec k' k); auto. subst. unfold stk. now rewrite E.
Qed.
Lemma with_stack_same : forall M k, mmax (with_stack M k) = mmax M /\ recinfo (with_stack M k) = recinfo M /\ sdict (with_stack M k) = sdict M /\
  bfirst (with_stack M k) = bfirst M /\ next (with_stack M k) = next M.
Proof. intros. unfold with_stack. destruct (substack M k); simpl; repeat split. Qed.
Lemma with_stack_G0 : forall M k, G0 M -> G0 (with_stack M k).
Proof.
  intros M k G. destruct (with_stack_same M k) as (A & B & C & D & E). pose proof G as [g1 g2 g3 g4 g5 g6 g7 g8 g9 g10].
  constructor.
  - unfold with_stack. destruct (substack M k); auto. simpl. now apply aset_wf.
  - now rewrite B.
  - now rewrite C.
  - intro k'. now rewrite with_stack_stk.
  - intro k'. rewrite with_stack_stk, A. auto.
  - intros k' n. rewrite with_stack_stk. auto.
  - intros k' n. rewrite with_stack_stk, E. apply g7.
  - intros k' n. rewrite with_stack_stk, C. apply g8.
  - intro k'. rewrite with_stack_stk. auto.
  - intros i k' id. rewrite with_stack_stk, B, C. apply g10.
Qed.
Lemma with_stack_sorted : forall M k, GS M -> StronglySorted cls_lt (sorted (with_stack M k)) /\
  forall k', k' <> k -> (In k' (sorted (with_stack M k)) <-> stk M k' <> []).
Proof.
  intros M k (S & E). unfold with_stack. destruct (substack M k) eqn:Q; [auto|]. cbn [sorted set_sorted]. split; [now apply kinsert_sorted|].
  intros k' N. rewrite kinsert_in, E. intuition.
Qed.

(** summary of a push: what it stores *)
Definition push_outcome (M : mstack) (h : hyp) (b : bool) (M' : mstack) : Prop :=
  mmax M' = mmax M /\ bfirst M' = bfirst M /\ (forall k', k' <> hclass h -> stk M' k' = stk M k') /\
  ((* an equal state with a better score is known *)
   (exists i sc, aget Nat.eq_dec (hstate h) (sdict M) = Some (i, sc) /\ (hscore h < sc)%Z /\ b = false /\
      (forall k, stk M' k = stk M k) /\ recinfo M' = recinfo M /\ sdict M' = sdict M) \/
   ((forall i sc, aget Nat.eq_dec (hstate h) (sdict M) = Some (i, sc) -> (sc <= hscore h)%Z) /\ sdict M' = dict_after M h /\
    ((* stored *)
     b = true /\ (exists M1, inserted (set_dict M (dict_after M h)) (hclass h) h (idx_after M h) M1 /\ recinfo M' = recinfo M1 /\ forall k, stk M' k = stk M1 k) \/
     (* no room *)
     b = false /\ (forall k, stk M' k = stk M k) /\ recinfo M' = recinfo M /\ (forall id', aget Nat.eq_dec (idx_after M h) (recinfo M) <> Some (hclass h, id')) /\ length (stk M (hclass h)) = mmax M))).

Lemma inserted_ext : forall M1 M2 k h idx M', inserted M1 k h idx M' -> (forall k, stk M2 k = stk M1 k) -> recinfo M2 = recinfo M1 -> mmax M2 = mmax M1 ->
  next M2 = next M1 -> sdict M2 = sdict M1 -> inserted M2 k h idx M'.
Proof. intros M1 M2 k h idx M' H E R X N D. unfold inserted in *. rewrite E, R, X, N, D. exact H. Qed.

Lemma push_ok : forall M h, G0 M -> GS M -> mmax M <> 0 ->
  exists b M', ms_push h M = Some (b, M') /\ G0 M' /\ GS M' /\ push_outcome M h b M'.
Proof.
  intros M h G S MX. unfold ms_push. change (match substack M (hclass h) with Some _ => M | None => set_sorted (put_stk M (hclass h) []) (kinsert (hclass h) (sorted M)) end)
    with (with_stack M (hclass h)).
  remember (with_stack M (hclass h)) as Mw eqn:EW.
  assert (Gw : G0 Mw) by (subst; now apply with_stack_G0).
  destruct (with_stack_same M (hclass h)) as (A & B & C & D & E). rewrite <- EW in A, B, C, D, E.
  assert (SW : forall k, stk Mw k = stk M k) by (intro; subst; apply with_stack_stk).
  destruct (with_stack_sorted M (hclass h) S) as (S1 & S2). rewrite <- EW in S1, S2.
  destruct (push_dec Mw h Gw ltac:(congruence)) as [(i & sc & Q1 & Q2 & Q3)|(Q1 & b & M' & Q2 & Q3 & Q4 & Q5 & Q6)].
  - (* recombination reject *)
    rewrite Q3. exists false. destruct (Nat.eqb_spec (length (stk Mw (hclass h))) 0) as [Z|Z].
    + eexists. split; [reflexivity|]. split; [now apply G0_sorted|]. split.
      * split; [cbn [sorted set_sorted]; now apply kerase_sorted|]. intro k. cbn [sorted set_sorted]. rewrite kerase_in.
        change (stk (set_sorted Mw (kerase (hclass h) (sorted Mw))) k) with (stk Mw k). rewrite SW. destruct (cls_dec k (hclass h)) as [->|N].
        -- split; [intros (_ & X); congruence|]. intro X. rewrite SW in Z. destruct (stk M (hclass h)); [congruence|discriminate].
        -- rewrite S2 by auto. tauto.
      * split; [exact A|]. split; [exact D|]. split; [intros; apply SW|]. left. exists i, sc. rewrite <- C. split; [exact Q1|]. split; [exact Q2|]. split; [reflexivity|].
        split; [exact SW|]. split; [exact B|reflexivity].
    + eexists. split; [reflexivity|]. split; [exact Gw|]. split.
      * split; [exact S1|]. intro k. rewrite SW. destruct (cls_dec k (hclass h)) as [->|N]; [|auto].
        rewrite SW in Z. assert (X : stk M (hclass h) <> []) by (intro X; rewrite X in Z; simpl in Z; lia). split; [auto|]. intros _. subst Mw. unfold with_stack.
        destruct (substack M (hclass h)) eqn:Y; [destruct S as (_ & S); now apply S|]. unfold stk in X. rewrite Y in X. congruence.
      * split; [exact A|]. split; [exact D|]. split; [intros; apply SW|]. left. exists i, sc. rewrite <- C. split; [exact Q1|]. split; [exact Q2|]. split; [reflexivity|].
        split; [exact SW|]. split; [exact B|reflexivity].
  - rewrite Q2. cbv zeta in Q3. remember (set_dict Mw (dict_after Mw h)) as M1 eqn:EM1.
    assert (DA : dict_after Mw h = dict_after M h) by (unfold dict_after; now rewrite C).
    assert (IA : idx_after Mw h = idx_after M h) by (unfold idx_after; now rewrite C).
    assert (D1 : aget Nat.eq_dec (hstate h) (sdict M1) = Some (idx_after Mw h, hscore h)).
    { subst M1. simpl. unfold dict_after. rewrite dict_create_get. destruct (Nat.eq_dec (hstate h) (hstate h)); [|congruence]. unfold idx_after. now destruct (aget Nat.eq_dec (hstate h) (sdict Mw)) as [[? ?]|]. }
    pose proof Q4 as (F1 & F2 & F3 & F4 & F5 & F6 & F7).
    assert (SM : stk M1 = stk Mw) by (subst M1; reflexivity).
    destruct Q6 as [(-> & INS)|(-> & R1 & R2 & R3 & R4)].
    + assert (G' : G0 M').
      { eapply inserted_ok; try exact Q3; try exact D1; try exact Q4; auto. subst M1; simpl; congruence. rewrite SM. exact Q5. }
      assert (NE : stk M' (hclass h) <> []).
      { destruct (inserted_split _ _ _ _ _ INS) as (r & Er & _). rewrite Er. intro X. apply (f_equal (@length _)) in X. rewrite insert_length in X. discriminate. }
      assert (SO : sorted M' = sorted Mw) by (rewrite F3; subst M1; reflexivity).
      exists true. destruct (Nat.eqb_spec (length (stk Mw (hclass h))) 0) as [Z|Z].
      * eexists. split; [reflexivity|]. split; [now apply G0_sorted|]. split.
        -- split; [cbn [sorted set_sorted]; rewrite SO; now apply kinsert_sorted|]. intro k. cbn [sorted set_sorted]. rewrite kinsert_in, SO.
           change (stk (set_sorted M' (kinsert (hclass h) (sorted Mw))) k) with (stk M' k).
           change (stk (set_sorted M' (kinsert (hclass h) (sorted M'))) k) with (stk M' k). destruct (cls_dec k (hclass h)) as [->|N]; [tauto|].
           rewrite Q5 by auto. rewrite SW. rewrite S2 by auto. tauto.
        -- split; [simpl; subst M1; simpl in *; congruence|]. split; [simpl; subst M1; simpl in *; congruence|].
           split; [intros k' N; change (stk (set_sorted M' (kinsert (hclass h) (sorted M'))) k') with (stk M' k'); rewrite Q5, SW by auto; auto|].
           right. rewrite <- C. split; [exact Q1|]. split; [simpl; rewrite F2; subst M1; simpl; auto|]. left. split; [reflexivity|]. exists M'. split; [|split; [reflexivity|reflexivity]].
           rewrite <- IA. apply (inserted_ext M1); [exact INS|intro; rewrite SM; symmetry; apply SW|subst M1; simpl; congruence|subst M1; simpl; congruence|subst M1; simpl; congruence|subst M1; simpl; congruence].
      * eexists. split; [reflexivity|]. split; [exact G'|]. split.
        -- split; [now rewrite SO|]. intro k. rewrite SO. destruct (cls_dec k (hclass h)) as [->|N].
           ++ split; [auto|]. intros _. rewrite SW in Z. assert (X : stk M (hclass h) <> []) by (intro X; rewrite X in Z; simpl in Z; lia). subst Mw. unfold with_stack.
              destruct (substack M (hclass h)) eqn:Y; [destruct S as (_ & S); now apply S|]. unfold stk in X. rewrite Y in X. congruence.
           ++ rewrite Q5, SW by auto. auto.
        -- split; [subst M1; simpl in *; congruence|]. split; [subst M1; simpl in *; congruence|].
           split; [intros k' N; rewrite Q5, SW by auto; auto|].
           right. rewrite <- C. split; [exact Q1|]. split; [rewrite F2; subst M1; simpl; auto|]. left. split; [reflexivity|]. exists M'. split; [|split; [reflexivity|reflexivity]].
           rewrite <- IA. apply (inserted_ext M1); [exact INS|intro; rewrite SM; symmetry; apply SW|subst M1; simpl; congruence|subst M1; simpl; congruence|subst M1; simpl; congruence|subst M1; simpl; congruence].
    + assert (ST : forall k, stk M' k = stk Mw k) by (intro k; destruct (cls_dec k (hclass h)) as [->|N]; [exact R1|rewrite Q5; auto]).
      assert (G' : G0 M').
      { apply (G0_next M1); auto; [intro k; rewrite ST; subst M1; reflexivity|rewrite R2; subst M1; reflexivity]. }
      assert (NE : stk M (hclass h) <> []) by (rewrite SW in R4; intro X; rewrite X in R4; simpl in R4; congruence).
      assert (SO : sorted M' = sorted Mw) by (rewrite F3; subst M1; reflexivity).
      exists false. rewrite ST, SW. destruct (Nat.eqb_spec (length (stk M (hclass h))) 0) as [Z|Z]; [destruct (stk M (hclass h)); [congruence|discriminate]|].
      eexists. split; [reflexivity|]. split; [exact G'|]. split.
      * split; [now rewrite SO|]. intro k. rewrite SO, ST, SW. destruct (cls_dec k (hclass h)) as [->|N]; [|auto].
        split; [auto|]. intros _. subst Mw. unfold with_stack. destruct (substack M (hclass h)) eqn:Y; [destruct S as (_ & S); now apply S|]. unfold stk in NE. rewrite Y in NE. congruence.
      * split; [subst M1; simpl in *; congruence|]. split; [subst M1; simpl in *; congruence|].
        split; [intros k' N; rewrite Q5, SW by auto; auto|]. right. rewrite <- C. split; [exact Q1|]. split; [rewrite F2; subst M1; simpl; auto|].
        right. split; [reflexivity|]. split; [intro k; rewrite ST; apply SW|]. split; [congruence|]. rewrite <- IA, <- B, <- A, <- SW. split; [exact R3|exact R4].
Qed.
