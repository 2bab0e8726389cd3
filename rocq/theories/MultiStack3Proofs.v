From Coq Require Import ZArith Arith List Bool Lia Sorted Permutation.
From Verif Require Import AMap StackSpec StackModel StackProofs MultiStackProofs MultiStack2Proofs.
Import ListNotations.
Open Scope nat_scope.

(** ** every stored node comes from a push *)
Definition from (M : mstack) (P : list hyp) : Prop := forall k n, In n (stk M k) -> In (snd n) P.
Lemma push_from : forall M h b M' P, push_outcome M h b M' -> from M P -> from M' (P ++ [h]).
Proof.
  intros M h b M' P (_ & _ & O & C) F k n I.
  assert (OLD : In n (stk M k) -> In (snd n) (P ++ [h])) by (intro X; apply in_or_app; left; exact (F k n X)).
  destruct C as [(i & sc & _ & _ & _ & E & _)|(_ & _ & [(_ & M1 & INS & _ & E)|(_ & E & _)])]; [rewrite E in I; auto| |rewrite E in I; auto].
  destruct (cls_dec k (hclass h)) as [->|N]; [|rewrite O in I; auto]. rewrite E in I. destruct (inserted_split _ _ _ _ _ INS) as (r & Er & SUB & _).
  rewrite Er in I. apply insert_in in I. destruct I as [->|I]; [apply in_elt|]. apply OLD. exact (SUB n I).
Qed.
Lemma dropped_stk : forall M k n a b M' k', dropped M k n a b M' -> stk M' k' = if cls_dec k' k then a ++ b else stk M k'.
Proof. intros M k n a b M' k' (_ & _ & i & sc & _ & ->). rewrite finish_stk. apply drop_stk. Qed.
Lemma dropped_sub : forall M k n a b M' k' m, dropped M k n a b M' -> In m (stk M' k') -> In m (stk M k').
Proof.
  intros M k n a b M' k' m D I. rewrite (dropped_stk _ _ _ _ _ _ k' D) in I. destruct (cls_dec k' k) as [->|]; auto. destruct D as (E & _). rewrite E. now apply in_mid.
Qed.
Lemma step_cases : forall M o M', G0 M -> GS M -> mmax M <> 0 -> ms_step M o = Some M' ->
  (exists h b, o = Push h /\ ms_push h M = Some (b, M') /\ push_outcome M h b M') \/
  (pushed [o] = [] /\ exists k n a b, dropped M k n a b M') \/
  (pushed [o] = [] /\ exists b, M' = set_bf b M).
Proof.
  intros M o M' G S MX H. destruct o as [h| | |b]; simpl in H.
  - destruct (push_ok M h G S MX) as (b & M1 & E & _ & _ & O). rewrite E in H. inversion H; subst. left. exists h, b. auto.
  - destruct (ms_isempty M) eqn:E; [right; right; split; [reflexivity|]; exists (bfirst M); inversion H; subst; now destruct M'|].
    assert (NE : sorted M <> []) by (intro X; apply empty_iff in X; congruence). destruct (pop_ok M G S NE) as (k & n & b & M1 & P & Dr & _). rewrite P in H. inversion H; subst.
    right. left. split; [reflexivity|]. exists k, n, [], b. exact Dr.
  - destruct (ms_isempty M) eqn:E; [right; right; split; [reflexivity|]; exists (bfirst M); inversion H; subst; now destruct M'|].
    assert (NE : sorted M <> []) by (intro X; apply empty_iff in X; congruence). destruct (removeLast_ok M G S NE) as (k & n & b & M1 & P & Dr & _). rewrite P in H. inversion H; subst.
    right. left. split; [reflexivity|]. exists k, n, b, []. exact Dr.
  - right. right. split; [reflexivity|]. exists b. congruence.
Qed.
Lemma step_from : forall M o M' P, G0 M -> GS M -> mmax M <> 0 -> ms_step M o = Some M' -> from M P -> from M' (P ++ pushed [o]).
Proof.
  intros M o M' P G S MX H F. destruct (step_cases M o M' G S MX H) as [(h & b & -> & _ & O)|[(E & k & n & a & b & D)|(E & b & ->)]].
  - simpl. eapply push_from; eauto.
  - rewrite E, app_nil_r. intros k' m I. eapply F. eapply dropped_sub; eauto.
  - rewrite E, app_nil_r. exact F.
Qed.

(** ** recombination *)
Record U (M : mstack) (P : list hyp) : Prop := {
  u_node : forall k n, In n (stk M k) -> In (snd n) P /\ exists i, aget Nat.eq_dec (hstate (snd n)) (sdict M) = Some (i, nscore n) /\ aget Nat.eq_dec i (recinfo M) = Some (k, fst n);
  u_all : forall h, In h P -> exists i sc, aget Nat.eq_dec (hstate h) (sdict M) = Some (i, sc) /\ (hscore h <= sc)%Z }.
Lemma U_same_state : forall M P k1 n1 k2 n2, G0 M -> U M P -> In n1 (stk M k1) -> In n2 (stk M k2) -> hstate (snd n1) = hstate (snd n2) -> k1 = k2 /\ n1 = n2.
Proof.
  intros M P k1 n1 k2 n2 G V I1 I2 E. destruct (u_node M P V _ _ I1) as (_ & i1 & A1 & B1). destruct (u_node M P V _ _ I2) as (_ & i2 & A2 & B2).
  rewrite E, A2 in A1. inversion A1; subst. rewrite B1 in B2. inversion B2; subst. split; auto. eapply nodup_ids; eauto. apply (g_ids M G).
Qed.
Lemma U_dropped : forall M k n a b M' P, G0 M -> U M P -> dropped M k n a b M' -> U M' P.
Proof.
  intros M k n a b M' P G V D.
  assert (OUT : forall k' m, In m (stk M' k') -> In m (stk M k') /\ hstate (snd m) <> hstate (snd n)).
  { intros k' m I. pose proof (dropped_sub _ _ _ _ _ _ _ _ D I) as J. split; auto. intro E. pose proof D as (Es & _). assert (In n (stk M k)) by (rewrite Es; apply in_elt).
    destruct (U_same_state M P k' m k n G V J H E) as (-> & ->). pose proof (g_ids M G k) as ND. rewrite Es in ND. apply nodup_mid in ND.
    rewrite (dropped_stk M k n a b M' k D) in I. destruct (cls_dec k k); [|congruence]. apply (proj2 ND n I eq_refl). }
  assert (FR : sdict M' = sdict M /\ exists i sc, aget Nat.eq_dec (hstate (snd n)) (sdict M) = Some (i, sc) /\ recinfo M' = adel Nat.eq_dec i (recinfo M)).
  { destruct D as (_ & _ & i & sc & E & ->). destruct (finish_same k (a ++ b) (drop M k i (a ++ b))) as (_ & R & Q & _). rewrite Q, R. split; [reflexivity|]. exists i, sc. auto. }
  destruct FR as (FD & i0 & sc0 & E0 & FR). constructor.
  - intros k' m I. destruct (OUT k' m I) as (J & NE). destruct (u_node M P V _ _ J) as (IP & i & A & B). split; auto. exists i. rewrite FD. split; auto.
    rewrite FR, aget_adel by apply (g_rwf M G). destruct (Nat.eq_dec i i0); auto. subst i0. exfalso. apply NE.
    destruct (g_dict M G) as (_ & _ & INJ). eapply INJ; eauto.
  - intros h I. rewrite FD. eapply u_all; eauto.
Qed.
Lemma U_push : forall M h b M' P, G0 M -> U M P -> push_outcome M h b M' ->
  (forall a, In a P -> hstate a = hstate h -> hclass a = hclass h) -> U M' (P ++ [h]).
Proof.
  intros M h b M' P G V (_ & _ & O & C) CL.
  destruct C as [(i & sc & A & B & _ & E & R & D)|(LE & D & C)].
  { constructor.
    - intros k n I. rewrite E in I. destruct (u_node M P V _ _ I) as (IP & j & X & Y). split; [apply in_or_app; auto|]. exists j. rewrite D, R. auto.
    - intros g I. rewrite D. apply in_app_iff in I. destruct I as [I|[<-|[]]]; [eapply u_all; eauto|]. exists i, sc. split; [auto|lia]. }
  assert (DG : forall s, aget Nat.eq_dec s (sdict M') = if Nat.eq_dec s (hstate h) then Some (idx_after M h, hscore h) else aget Nat.eq_dec s (sdict M)).
  { intro s. rewrite D. unfold dict_after. rewrite dict_create_get. unfold idx_after. destruct (Nat.eq_dec s (hstate h)); auto. }
  assert (ALL : forall g, In g (P ++ [h]) -> exists i sc, aget Nat.eq_dec (hstate g) (sdict M') = Some (i, sc) /\ (hscore g <= sc)%Z).
  { intros g I. rewrite DG. apply in_app_iff in I. destruct I as [I|[<-|[]]].
    - destruct (u_all M P V g I) as (i & sc & X & Y). destruct (Nat.eq_dec (hstate g) (hstate h)) as [Q|]; [|eauto]. exists (idx_after M h), (hscore h). split; auto.
      rewrite Q in X. apply LE in X. lia.
    - destruct (Nat.eq_dec (hstate h) (hstate h)); [|congruence]. eexists; eexists. split; [reflexivity|lia]. }
  (* a stored node with the state of h is in the class of h and is designated by the pointer *)
  assert (PTR : forall k n, In n (stk M k) -> hstate (snd n) = hstate h -> k = hclass h /\ aget Nat.eq_dec (idx_after M h) (recinfo M) = Some (k, fst n)).
  { intros k n I Q. destruct (u_node M P V _ _ I) as (IP & i & X & Y). split.
    - rewrite <- (g_cls M G k n I). auto.
    - unfold idx_after. rewrite <- Q, X. exact Y. }
  assert (NEQ : forall k n i sc, In n (stk M k) -> hstate (snd n) <> hstate h -> aget Nat.eq_dec (hstate (snd n)) (sdict M) = Some (i, sc) -> i <> idx_after M h).
  { intros k n i sc I N X Q. subst i. unfold idx_after in X. destruct (g_dict M G) as (_ & BD & INJ). destruct (aget Nat.eq_dec (hstate h) (sdict M)) as [[j s]|] eqn:Z.
    - apply N. eapply INJ; eauto.
    - apply BD in X. lia. }
  constructor; [|exact ALL]. intros k n I.
  destruct C as [(_ & M1 & INS & R & E)|(_ & E & R & NP & _)].
  - rewrite E in I.
    assert (CASES : (k = hclass h /\ n = (next M, h)) \/ (In n (stk M k) /\ hstate (snd n) <> hstate h)).
    { destruct INS as (l1 & CC & F). change (stk (set_dict M (dict_after M h))) with (stk M) in *. change (recinfo (set_dict M (dict_after M h))) with (recinfo M) in *.
      destruct (cls_dec k (hclass h)) as [->|N].
      - assert (I' : n = (next M, h) \/ (In n l1 /\ ((exists r m, l1 = r ++ [m] /\ l1 = stk M (hclass h)) \/ True))).
        { destruct F as [(_ & Q & _)|(r & m & im & sm & Q1 & Q2 & Q3 & _)]; [rewrite Q in I|rewrite Q3 in I]; apply insert_in in I; destruct I as [I|I]; auto.
          right. split; [rewrite Q1; apply in_or_app; auto|auto]. }
        destruct I' as [I'|(I' & _)]; [auto|]. right. destruct CC as [(NP & ->)|(id' & RP & Q)].
        + split; auto. intro X. destruct (PTR _ _ I' X) as (_ & Y). exact (NP _ Y).
        + apply erase_split in Q. destruct Q as (a & n0 & b0 & El & -> & En). split; [rewrite El; now apply in_mid|]. intro X.
          assert (J : In n (stk M (hclass h))) by (rewrite El; now apply in_mid). destruct (PTR _ _ J X) as (_ & Y). rewrite RP in Y. inversion Y.
          pose proof (g_ids M G (hclass h)) as ND. rewrite El in ND. apply nodup_mid in ND. apply (proj2 ND n I'). congruence.
      - right. rewrite <- E, O in I by auto. split; auto. intro X. destruct (PTR _ _ I X) as (Y & _). contradiction. }
    assert (NOIM : forall r m im sm, stk M (hclass h) = r ++ [m] -> aget Nat.eq_dec (hstate (snd m)) (sdict (set_dict M (dict_after M h))) = Some (im, sm) ->
               (exists l1, l1 = r ++ [m] /\ ((forall id', aget Nat.eq_dec (idx_after M h) (recinfo M) <> Some (hclass h, id')) /\ l1 = stk M (hclass h) \/
                  exists id', aget Nat.eq_dec (idx_after M h) (recinfo M) = Some (hclass h, id') /\ st_erase id' (stk M (hclass h)) = Some l1)) ->
               hstate (snd m) <> hstate h /\ aget Nat.eq_dec (hstate (snd m)) (sdict M) = Some (im, sm)).
    { intros r m im sm Er X (l1 & El & CC). assert (Im : In m (stk M (hclass h))) by (rewrite Er; apply in_elt).
      assert (NS : hstate (snd m) <> hstate h).
      { intro Q. destruct (PTR _ _ Im Q) as (_ & Y). destruct CC as [(NP & _)|(id' & _ & Z)]; [exact (NP _ Y)|]. apply erase_length in Z. rewrite Er, El in Z. lia. }
      split; auto. simpl in X. rewrite <- D, DG in X. destruct (Nat.eq_dec (hstate (snd m)) (hstate h)); [contradiction|auto]. }
    destruct CASES as [(-> & ->)|(J & NS)].
    + split; [apply in_elt|]. exists (idx_after M h). cbn [snd fst]. rewrite DG. destruct (Nat.eq_dec (hstate h) (hstate h)); [|congruence]. split; [reflexivity|].
      rewrite R. destruct INS as (l1 & CC & [(_ & _ & RC)|(r & m & im & sm & Q1 & Q2 & Q3 & _ & Dm & RC)]); rewrite RC.
      * destruct (Nat.eq_dec (idx_after M h) (idx_after M h)); [reflexivity|congruence].
      * change (stk (set_dict M (dict_after M h))) with (stk M) in *. destruct (NOIM r m im sm ltac:(congruence) Dm ltac:(exists l1; auto)) as (NS & Dm').
        assert (Im : In m (stk M (hclass h))) by (rewrite <- Q2, Q1; apply in_elt).
        destruct (Nat.eq_dec (idx_after M h) im) as [Q|_]; [exfalso; eapply NEQ; [exact Im|exact NS|exact Dm'|auto]|].
        destruct (Nat.eq_dec (idx_after M h) (idx_after M h)); [reflexivity|congruence].
    + destruct (u_node M P V _ _ J) as (IP & i & A & B). split; [apply in_or_app; auto|]. exists i. rewrite DG. destruct (Nat.eq_dec (hstate (snd n)) (hstate h)); [contradiction|]. split; auto.
      pose proof (NEQ k n i _ J NS A) as NI.
      rewrite R. destruct INS as (l1 & CC & [(_ & _ & RC)|(r & m & im & sm & Q1 & Q2 & Q3 & _ & Dm & RC)]); rewrite RC.
      * destruct (Nat.eq_dec i (idx_after M h)); [contradiction|exact B].
      * change (stk (set_dict M (dict_after M h))) with (stk M) in *. destruct (NOIM r m im sm ltac:(congruence) Dm ltac:(exists l1; auto)) as (NSm & Dm').
        assert (Im : In m (stk M (hclass h))) by (rewrite <- Q2, Q1; apply in_elt).
        destruct (Nat.eq_dec i (idx_after M h)); [contradiction|]. destruct (Nat.eq_dec i im) as [Q|]; [|exact B]. exfalso. subst im.
        destruct (g_dict M G) as (_ & _ & INJ). pose proof (INJ _ _ _ _ _ A Dm') as SS. destruct (U_same_state M P k n (hclass h) m G V J Im SS) as (-> & ->).
        rewrite Q3 in I. apply insert_in in I. destruct I as [I|I].
        -- apply (f_equal (fun x => hstate (snd x))) in I. contradiction.
        -- pose proof (g_ids M G (hclass h)) as ND. rewrite <- Q2, Q1 in ND. apply nodup_mid in ND. apply (proj2 ND m); [rewrite app_nil_r; exact I|reflexivity].
  - rewrite E in I. assert (NS : hstate (snd n) <> hstate h) by (intro X; destruct (PTR _ _ I X) as (-> & Y); exact (NP _ Y)).
    destruct (u_node M P V _ _ I) as (IP & i & A & B). split; [apply in_or_app; auto|]. exists i. rewrite DG, R. destruct (Nat.eq_dec (hstate (snd n)) (hstate h)); [contradiction|]. auto.
Qed.
Lemma U_step : forall M o M' P, G0 M -> GS M -> mmax M <> 0 -> ms_step M o = Some M' -> U M P ->
  (forall a b, In a (P ++ pushed [o]) -> In b (P ++ pushed [o]) -> hstate a = hstate b -> hclass a = hclass b) -> U M' (P ++ pushed [o]).
Proof.
  intros M o M' P G S MX H V CL. destruct (step_cases M o M' G S MX H) as [(h & b & -> & _ & O)|[(E & k & n & a & b & D)|(E & b & ->)]].
  - simpl in *. eapply U_push; eauto. intros a I Q. apply CL; auto; apply in_or_app; simpl; auto.
  - rewrite E, app_nil_r. eapply U_dropped; eauto.
  - rewrite E, app_nil_r. destruct V. constructor; auto.
Qed.
Lemma U_run : forall ops M M' P, G0 M -> GS M -> mmax M <> 0 -> ms_run ops M = Some M' -> U M P ->
  (forall a b, In a (P ++ pushed ops) -> In b (P ++ pushed ops) -> hstate a = hstate b -> hclass a = hclass b) -> U M' (P ++ pushed ops).
Proof.
  induction ops as [|o ops IH]; intros M M' P G S MX H V CL; cbn [ms_run] in H.
  - inversion H; subst. simpl. now rewrite app_nil_r.
  - destruct (step_ok M o G S MX) as (M1 & E1 & G1 & S1 & X1). rewrite E1 in H. change (o :: ops) with ([o] ++ ops) in *. rewrite pushed_app, app_assoc in *.
    apply (IH M1); auto; [congruence|]. apply (U_step M o); auto. intros a b Ia Ib. apply CL; apply in_or_app; auto.
Qed.
Lemma from_run : forall ops M M' P, G0 M -> GS M -> mmax M <> 0 -> ms_run ops M = Some M' -> from M P -> from M' (P ++ pushed ops).
Proof.
  induction ops as [|o ops IH]; intros M M' P G S MX H V; cbn [ms_run] in H.
  - inversion H; subst. simpl. now rewrite app_nil_r.
  - destruct (step_ok M o G S MX) as (M1 & E1 & G1 & S1 & X1). rewrite E1 in H. change (o :: ops) with ([o] ++ ops) in *. rewrite pushed_app, app_assoc in *.
    apply (IH M1); auto; [congruence|]. apply (step_from M o); auto.
Qed.

(** ** final statements *)
Lemma safe : forall max ops, max <> 0 -> exists M, ms_run ops (ms_empty max) = Some M /\
  (forall i k id, aget Nat.eq_dec i (recinfo M) = Some (k, id) -> exists n, In n (stk M k) /\ fst n = id) /\
  (forall k, non_increasing (map snd (stk M k)) /\ length (stk M k) <= max /\ forall n, In n (stk M k) -> hclass (snd n) = k) /\
  (forall h, In h (stored M) -> In h (pushed ops)) /\ (ms_isempty M = true <-> stored M = []).
Proof.
  intros max ops MX. destruct (G0_empty max) as (G & S). destruct (run_ok ops _ G S MX) as (M & E & G' & S' & X). exists M. split; [exact E|]. split; [|split; [|split]].
  - intros i k id H. destruct (g_rec M G' _ _ _ H) as (n & I & Q & _). eauto.
  - intro k. split; [apply SS_map, (g_sort M G')|]. split; [simpl in X; rewrite <- X; apply (g_len M G')|]. apply (g_cls M G').
  - intros h I. apply stored_in in I; auto. destruct I as (k & n & I & <-). refine (from_run ops _ M [] G S MX E _ k n I). intros k0 n0 J. destruct J.
  - rewrite empty_iff. split.
    + intro Q. destruct (stored M) as [|h l] eqn:St; auto. exfalso. assert (I : In h (stored M)) by (rewrite St; simpl; auto). apply stored_in in I; auto. destruct I as (k & n & I & _).
      assert (In k (sorted M)) by (apply S'; intro Z; rewrite Z in I; exact I). rewrite Q in H. exact H.
    + intro Q. destruct (sorted M) as [|k r] eqn:St; auto. exfalso. assert (NE : stk M k <> []) by (apply S'; rewrite St; simpl; auto).
      destruct (stk M k) as [|n l] eqn:Z; [congruence|]. assert (I : In (snd n) (stored M)) by (apply stored_in; auto; exists k, n; rewrite Z; simpl; auto). rewrite Q in I. exact I.
Qed.
Lemma nodup_app2 : forall A (a b : list A), NoDup a -> NoDup b -> (forall x, In x a -> In x b -> False) -> NoDup (a ++ b).
Proof.
  induction a as [|x a IH]; simpl; intros b Ha Hb H; auto. inversion Ha; subst. constructor.
  - rewrite in_app_iff. intros [X|X]; [auto|eapply H; eauto].
  - apply IH; auto. intros y Hy1 Hy2. apply (H y); auto.
Qed.
Lemma nodup_flat : forall c, (forall k l, In (k, l) c -> NoDup (map (fun n : node => hstate (snd n)) l)) ->
  (forall k1 l1 k2 l2 n1 n2, In (k1, l1) c -> In (k2, l2) c -> In n1 l1 -> In n2 l2 -> hstate (snd n1) = hstate (snd n2) -> k1 = k2) -> awf c ->
  NoDup (map hstate (flat_map (fun e : cls * list node => map (@snd nat hyp) (snd e)) c)).
Proof.
  induction c as [|(k, l) c IH]; intros A B W; [constructor|]. cbn [flat_map snd]. rewrite map_app. inversion W; subst. apply nodup_app2.
  - rewrite map_map. apply (A k). simpl; auto.
  - apply IH; auto; [intros; eapply A; simpl; eauto|]. intros. eapply B; simpl; eauto.
  - intros s I1 I2. rewrite map_map in I1. apply in_map_iff in I1. destruct I1 as (n1 & E1 & I1). apply in_map_iff in I2. destruct I2 as (h & E2 & I2).
    apply in_flat_map in I2. destruct I2 as ((k2, l2) & J & I2). simpl in I2. apply in_map_iff in I2. destruct I2 as (n2 & <- & I2).
    assert (k = k2) by (eapply (B k l k2 l2 n1 n2); simpl; auto; congruence). subst k2. apply H1. apply (in_map fst) in J. exact J.
Qed.
Lemma unique : forall max ops M, max <> 0 -> classes_by_state ops -> ms_run ops (ms_empty max) = Some M ->
  NoDup (map hstate (stored M)) /\ forall h g, In h (stored M) -> In g (pushed ops) -> hstate g = hstate h -> (hscore g <= hscore h)%Z.
Proof.
  intros max ops M MX CL E. destruct (G0_empty max) as (G & S). destruct (run_ok ops _ G S MX) as (M0 & E0 & G' & S' & X). assert (M0 = M) by congruence. subst M0.
  assert (V : U M ([] ++ pushed ops)).
  { apply (U_run ops (ms_empty max)); auto. constructor; [intros k n J; destruct J|intros h J; destruct J]. }
  simpl in V. split.
  - unfold stored. apply nodup_flat.
    + intros k l I. apply (aget_in cls_dec) in I; [|apply (g_wf M G')]. assert (Q : stk M k = l) by (unfold stk, substack; now rewrite I). rewrite <- Q.
      assert (INJ : forall n1 n2, In n1 (stk M k) -> In n2 (stk M k) -> hstate (snd n1) = hstate (snd n2) -> n1 = n2) by (intros; eapply U_same_state; eauto).
      pose proof (g_ids M G' k) as ND. revert INJ ND. generalize (stk M k). induction l0 as [|n l0 IHl]; intros INJ ND; simpl; constructor.
      * intro J. apply in_map_iff in J. destruct J as (m & Em & Im). assert (m = n) by (apply INJ; simpl; auto). subst m. inversion ND; subst. apply H1. now apply in_map.
      * apply IHl; [|inversion ND; auto]. intros; apply INJ; simpl; auto.
    + intros k1 l1 k2 l2 n1 n2 I1 I2 J1 J2 Q. apply (aget_in cls_dec) in I1; [|apply (g_wf M G')]. apply (aget_in cls_dec) in I2; [|apply (g_wf M G')].
      eapply (U_same_state M (pushed ops) k1 n1 k2 n2); eauto; unfold stk, substack; [rewrite I1|rewrite I2]; auto.
    + apply (g_wf M G').
  - intros h g I J Q. apply stored_in in I; auto. destruct I as (k & n & I & <-). destruct (u_node _ _ V _ _ I) as (_ & i & A & _).
    destruct (u_all _ _ V g J) as (j & sc & B & L). rewrite Q, A in B. inversion B; subst. exact L.
Qed.

(** ** nothing is lost while there is room *)
Lemma pushes_only : forall hs, pushed (map Push hs) = hs.
Proof. induction hs; simpl; congruence. Qed.
Definition full (M : mstack) (P : list hyp) : Prop := forall h, In h P -> exists k n, In n (stk M k) /\ hstate (snd n) = hstate h.
Lemma len_next : forall M k, G0 M -> length (stk M k) <= next M.
Proof.
  intros M k G. assert (H : length (map fst (stk M k)) <= length (seq 0 (next M))); [|rewrite map_length, seq_length in H; exact H]. apply NoDup_incl_length; [apply (g_ids M G)|].
  intros x I. apply in_map_iff in I. destruct I as (n & <- & I). apply in_seq. pose proof (g_next M G k n I). lia.
Qed.
Lemma push_next : forall M h b M', G0 M -> GS M -> mmax M <> 0 -> ms_push h M = Some (b, M') -> next M' <= S (next M).
Proof.
  intros M h b M' G S MX. unfold ms_push. change (match substack M (hclass h) with Some _ => M | None => set_sorted (put_stk M (hclass h) []) (kinsert (hclass h) (sorted M)) end)
    with (with_stack M (hclass h)). destruct (with_stack_same M (hclass h)) as (A & _ & _ & _ & N). pose proof (with_stack_G0 M (hclass h) G) as Gw.
  destruct (push_dec (with_stack M (hclass h)) h Gw ltac:(congruence)) as [(i & sc & _ & _ & Q)|(_ & b1 & M1 & Q & _ & (_ & _ & _ & _ & F & _) & _)]; rewrite Q.
  - intro H. inversion H; subst. destruct (length _ =? 0); simpl; lia.
  - simpl in F. rewrite N in F. intro H. destruct b1; inversion H; subst; destruct (length _ =? 0); simpl; lia.
Qed.
Lemma full_push : forall M h b M' P, G0 M -> U M P -> push_outcome M h b M' -> length (stk M (hclass h)) < mmax M -> full M P ->
  (forall g, In g P -> hstate g = hstate h -> hclass g = hclass h) -> 
  (forall s i sc, aget Nat.eq_dec s (sdict M) = Some (i, sc) -> exists g, In g P /\ hstate g = s) -> full M' (P ++ [h]).
Proof.
  intros M h b M' P G V (_ & _ & O & C) L F CL DP.
  assert (KEEP : (forall k, stk M' k = stk M k) -> (exists k n, In n (stk M k) /\ hstate (snd n) = hstate h) -> full M' (P ++ [h])).
  { intros E K g I. apply in_app_iff in I. destruct I as [I|[<-|[]]]; [destruct (F g I) as (k & n & J & Q)|destruct K as (k & n & J & Q)]; exists k, n; rewrite E; auto. }
  destruct C as [(i & sc & A & _ & _ & E & _)|(_ & _ & [(_ & M1 & INS & _ & E)|(_ & E & _ & _ & LL)])].
  - apply KEEP; auto. destruct (DP _ _ _ A) as (g & Ig & Q). destruct (F g Ig) as (k & n & J & Q'). exists k, n. split; auto. congruence.
  - assert (NEW : exists k n, In n (stk M' k) /\ hstate (snd n) = hstate h).
    { destruct (inserted_split _ _ _ _ _ INS) as (r & Er & _). exists (hclass h), (next M, h). rewrite E, Er. split; [apply insert_in; auto|reflexivity]. }
    intros g I. destruct (Nat.eq_dec (hstate g) (hstate h)) as [Q|NQ]; [destruct NEW as (k & n & J & Q'); exists k, n; split; congruence|].
    apply in_app_iff in I. destruct I as [I|[<-|[]]]; [|congruence]. destruct (F g I) as (k & n & J & Q'). exists k, n. split; auto. destruct (cls_dec k (hclass h)) as [->|N]; [|rewrite O; auto].
    rewrite E. destruct INS as (l1 & CC & [(_ & Q1 & _)|(r & m & im & sm & Q1 & Q2 & _ & LM & _)]).
    + rewrite Q1. apply insert_in. right. change (stk (set_dict M (dict_after M h))) with (stk M) in *. change (recinfo (set_dict M (dict_after M h))) with (recinfo M) in *.
      destruct CC as [(_ & ->)|(id' & RP & Er)]; auto. apply erase_split in Er. destruct Er as (a & n0 & b0 & El & -> & En). rewrite El in J. apply in_mid_other with (n := n0); auto. intro X. subst n0.
      destruct (g_rec M G _ _ _ RP) as (n2 & J2 & E2 & sc2 & D2). assert (n2 = n) by (apply (nodup_ids (stk M (hclass h))); auto; [apply (g_ids M G)|rewrite El; auto|congruence]). subst n2.
      unfold idx_after in RP, D2. destruct (aget Nat.eq_dec (hstate h) (sdict M)) as [[j s]|] eqn:Z.
      * destruct (g_dict M G) as (_ & _ & INJ). apply NQ. rewrite <- Q'. eapply INJ; eauto.
      * destruct (g_dict M G) as (_ & BD & _). apply BD in D2. lia.
    + exfalso. change (stk (set_dict M (dict_after M h))) with (stk M) in *. destruct LM as (_ & LM). simpl in LM. rewrite Q2 in LM. lia.
  - lia.
Qed.

(** the dictionary only knows pushed states *)
Definition dfrom (M : mstack) (P : list hyp) : Prop := forall s i sc, aget Nat.eq_dec s (sdict M) = Some (i, sc) -> exists g, In g P /\ hstate g = s.
Lemma push_dfrom : forall M h b M' P, push_outcome M h b M' -> dfrom M P -> dfrom M' (P ++ [h]).
Proof.
  intros M h b M' P (_ & _ & _ & C) F s i sc H. destruct C as [(i0 & sc0 & _ & _ & _ & _ & _ & D)|(_ & D & _)]; rewrite D in H.
  - destruct (F _ _ _ H) as (g & Ig & Q). exists g. split; auto. apply in_or_app; auto.
  - unfold dict_after in H. rewrite dict_create_get in H. destruct (Nat.eq_dec s (hstate h)) as [->|].
    + exists h. split; auto. apply in_elt.
    + destruct (F _ _ _ H) as (g & Ig & Q). exists g. split; auto. apply in_or_app; auto.
Qed.
Lemma complete_run : forall hs M P M', G0 M -> GS M -> U M P -> full M P -> dfrom M P -> next M + length hs <= mmax M ->
  (forall a b, In a (P ++ hs) -> In b (P ++ hs) -> hstate a = hstate b -> hclass a = hclass b) -> ms_run (map Push hs) M = Some M' -> full M' (P ++ hs).
Proof.
  induction hs as [|h hs IH]; intros M P M' G S V F DF L CL H; cbn [map ms_run] in H.
  - inversion H; subst. now rewrite app_nil_r.
  - cbn [length] in L. destruct (push_ok M h G S ltac:(lia)) as (b & M1 & E & G1 & S1 & O). pose proof (push_next M h b M1 G S ltac:(lia) E) as N.
    unfold ms_step in H. rewrite E in H. cbn [option_map snd] in H. replace (P ++ h :: hs) with ((P ++ [h]) ++ hs) in * by (rewrite <- app_assoc; reflexivity).
    pose proof O as (X & _).
    assert (CL' : forall g, In g P -> hstate g = hstate h -> hclass g = hclass h).
    { intros g I Q. apply CL; auto; apply in_or_app; left; apply in_or_app; simpl; auto. }
    apply (IH M1); auto.
    + apply (U_push M h b); auto.
    + apply (full_push M h b M1 P); auto. pose proof (len_next M (hclass h) G). lia.
    + apply (push_dfrom M h b); auto.
    + lia.
Qed.
Lemma complete : forall max hs M, length hs <= max -> classes_by_state (map Push hs) -> ms_run (map Push hs) (ms_empty max) = Some M ->
  forall h, In h hs -> exists g, In g (stored M) /\ hstate g = hstate h /\ (hscore h <= hscore g)%Z.
Proof.
  intros max hs M L CL E h I. assert (MX : max <> 0) by (destruct hs; [destruct I|simpl in L; lia]). destruct (G0_empty max) as (G & S).
  unfold classes_by_state in CL. rewrite pushes_only in CL.
  assert (F : full M ([] ++ hs)).
  { apply (complete_run hs (ms_empty max) [] M); auto.
    - constructor; [intros k n J; destruct J|intros g J; destruct J].
    - intros g J; destruct J.
    - intros s i sc Q. discriminate. }
  destruct (F h I) as (k & n & J & Q). destruct (run_ok (map Push hs) _ G S MX) as (M0 & E0 & G' & _). assert (M0 = M) by congruence. subst M0.
  exists (snd n). assert (K : In (snd n) (stored M)) by (apply stored_in; eauto). split; auto. split; auto.
  destruct (unique max (map Push hs) M MX) as (_ & B); auto; [unfold classes_by_state; now rewrite pushes_only|]. apply B; auto. now rewrite pushes_only.
Qed.

(** ** C35 *)
Lemma sorted_stored : forall M k, G0 M -> GS M -> (In k (sorted M) <-> exists g, In g (stored M) /\ hclass g = k).
Proof.
  intros M k G (S & E). rewrite E. split.
  - intro H. destruct (stk M k) as [|n l] eqn:Q; [congruence|]. exists (snd n). split; [|apply (g_cls M G); rewrite Q; simpl; auto].
    apply stored_in; auto. exists k, n. rewrite Q. simpl. auto.
  - intros (g & I & <-). apply stored_in in I; auto. destruct I as (k & n & I & <-). rewrite (g_cls M G k n I). intro Q. rewrite Q in I. exact I.
Qed.
Lemma nonempty_stored : forall M, G0 M -> GS M -> stored M <> [] -> sorted M <> [].
Proof.
  intros M G S NE Q. destruct (stored M) as [|h l] eqn:E; [congruence|]. assert (I : In (hclass h) (sorted M)) by (apply sorted_stored; auto; exists h; rewrite E; simpl; auto).
  rewrite Q in I. exact I.
Qed.
Lemma reach : forall max ops M, max <> 0 -> ms_run ops (ms_empty max) = Some M -> G0 M /\ GS M /\ mmax M = max.
Proof.
  intros max ops M MX E. destruct (G0_empty max) as (G & S). destruct (run_ok ops _ G S MX) as (M0 & E0 & G' & S' & X). assert (M0 = M) by congruence. subst M0. auto.
Qed.
Definition best_of (l : list hyp) (h : hyp) : Prop := In h l /\ forall g, In g l -> (hscore g <= hscore h)%Z.
Lemma pop_best : forall max ops M, max <> 0 -> ms_run ops (ms_empty max) = Some M -> stored M <> [] ->
  exists h M', ms_pop M = Some (h, M') /\ Permutation (stored M) (h :: stored M') /\
    (bfirst M = false -> forall g, In g (stored M) -> (hscore g <= hscore h)%Z) /\
    (bfirst M = true -> forall g, In g (stored M) -> cls_lt (hclass h) (hclass g) \/ (hclass g = hclass h /\ (hscore g <= hscore h)%Z)).
Proof.
  intros max ops M MX E NE. destruct (reach max ops M MX E) as (G & S & X). pose proof (nonempty_stored M G S NE) as NS.
  destruct (pop_ok M G S NS) as (k & n & b & M' & P & D & B1 & B2). exists (snd n), M'. split; [exact P|]. split; [eapply dropped_stored; eauto|]. split.
  - intros BF g I. apply stored_in in I; auto. destruct I as (k' & m & I & <-). exact (B2 BF k' m I).
  - intros BF g I. pose proof D as (Es & _). assert (HK : hclass (snd n) = k) by (apply (g_cls M G); rewrite Es; simpl; auto). rewrite HK.
    assert (J : In (hclass g) (sorted M)) by (apply sorted_stored; eauto). destruct (B1 BF _ J) as [Q|Q]; auto. right. split; auto.
    apply stored_in in I; auto. destruct I as (k' & m & I & <-). rewrite (g_cls M G k' m I) in Q. subst k'. eapply (sorted_hd_max (stk M k)); eauto. apply (g_sort M G).
Qed.
Lemma removeLast_worst : forall max ops M, max <> 0 -> ms_run ops (ms_empty max) = Some M -> stored M <> [] ->
  exists h M', ms_removeLast M = Some M' /\ Permutation (stored M) (h :: stored M') /\
    (forall g, In g (stored M) -> hclass g = hclass h -> (hscore h <= hscore g)%Z) /\
    (bfirst M = true -> forall g, In g (stored M) -> ~ cls_lt (hclass h) (hclass g)) /\
    (bfirst M = false -> forall g, In g (stored M) -> ~ cls_lt (hclass g) (hclass h)).
Proof.
  intros max ops M MX E NE. destruct (reach max ops M MX E) as (G & S & X). pose proof (nonempty_stored M G S NE) as NS.
  destruct (removeLast_ok M G S NS) as (k & n & a & M' & P & D & B1 & B2). pose proof D as (Es & _).
  assert (HK : hclass (snd n) = k) by (apply (g_cls M G); rewrite Es; apply in_elt).
  assert (IRR : forall a b, cls_lt a b -> cls_lt b a -> False) by (unfold cls_lt; intros; lia).
  assert (IRR2 : forall a, ~ cls_lt a a) by (unfold cls_lt; intros; lia).
  exists (snd n), M'. split; [exact P|]. split; [eapply dropped_stored; eauto|]. rewrite HK. split; [|split].
  - intros g I Q. apply stored_in in I; auto. destruct I as (k' & m & I & <-). rewrite (g_cls M G k' m I) in Q. subst k'. rewrite Es in I. apply in_app_iff in I.
    destruct I as [I|[<-|[]]]; [|lia]. pose proof (g_sort M G k) as SS. rewrite Es in SS. apply SS_app in SS. destruct SS as (_ & _ & SS). apply (SS m n); simpl; auto.
  - intros BF g I Q. assert (J : In (hclass g) (sorted M)) by (apply sorted_stored; eauto). destruct (B1 BF _ J) as [Z|Z]; [rewrite Z in Q; eapply IRR2; eauto|eauto].
  - intros BF g I Q. assert (J : In (hclass g) (sorted M)) by (apply sorted_stored; eauto). destruct (B2 BF _ J) as [Z|Z]; [rewrite Z in Q; eapply IRR2; eauto|eauto].
Qed.
Lemma scan_top_ok : forall M ks r bs, (forall k, In k ks -> stk M k <> []) -> exists h, scan_top M ks r bs = Some h /\
  ((h = r /\ forall k n c, In k ks -> stk M k = n :: c -> (nscore n <= bs)%Z) \/
   ((bs < hscore h)%Z /\ (exists k n c, In k ks /\ stk M k = n :: c /\ h = snd n) /\ forall k n c, In k ks -> stk M k = n :: c -> (nscore n <= hscore h)%Z)).
Proof.
  induction ks as [|k ks IH]; intros r bs NE; simpl.
  - exists r. split; auto. left. split; auto. intros; tauto.
  - destruct (stk M k) as [|m c] eqn:E; [exfalso; exact (NE k (or_introl eq_refl) E)|]. cbn [st_top].
    assert (NE' : forall k1, In k1 ks -> stk M k1 <> []) by (intros; apply NE; simpl; auto).
    destruct (Z.ltb_spec bs (nscore m)) as [L|L].
    + destruct (IH (snd m) (nscore m) NE') as (h & H1 & [(H2 & H3)|(H2 & H3 & H4)]); exists h; (split; [exact H1|]); right.
      * subst h. split; [exact L|]. split; [exists k, m, c; simpl; auto|]. intros k' n' c' [<-|I] E'; [rewrite E in E'; inversion E'; subst; unfold nscore; lia|]. eapply H3; eauto.
      * split; [lia|]. split; [destruct H3 as (k1 & n1 & c1 & I1 & E1 & Q1); exists k1, n1, c1; simpl; auto|]. intros k' n' c' [<-|I] E'; [rewrite E in E'; inversion E'; subst; lia|]. eapply H4; eauto.
    + destruct (IH r bs NE') as (h & H1 & [(H2 & H3)|(H2 & H3 & H4)]); exists h; (split; [exact H1|]).
      * left. split; auto. intros k' n' c' [<-|I] E'; [rewrite E in E'; inversion E'; subst; auto|eauto].
      * right. split; auto. split; [destruct H3 as (k1 & n1 & c1 & I1 & E1 & Q1); exists k1, n1, c1; simpl; auto|]. intros k' n' c' [<-|I] E'; [rewrite E in E'; inversion E'; subst; lia|]. eapply H4; eauto.
Qed.
Lemma top_best : forall max ops M dflt, max <> 0 -> ms_run ops (ms_empty max) = Some M -> stored M <> [] ->
  exists h, ms_top dflt M = Some h /\ In h (stored M) /\
    (bfirst M = false -> (exists g, In g (stored M) /\ (dflt < hscore g)%Z) -> forall g, In g (stored M) -> (hscore g <= hscore h)%Z) /\
    (bfirst M = true -> forall g, In g (stored M) -> cls_lt (hclass h) (hclass g) \/ (hclass g = hclass h /\ (hscore g <= hscore h)%Z)).
Proof.
  intros max ops M dflt MX E NE. destruct (reach max ops M MX E) as (G & S & X). pose proof (nonempty_stored M G S NE) as NS. unfold ms_top.
  destruct S as (S & SE). destruct (sorted M) as [|k0 r] eqn:Q; [congruence|].
  assert (T0 : exists n0 b0, stk M k0 = n0 :: b0). { destruct (stk M k0) eqn:Y; [|eauto]. exfalso. now apply (proj1 (SE k0) (or_introl eq_refl)). }
  destruct T0 as (n0 & b0 & E0). rewrite E0. cbn [st_top].
  assert (I0 : In (snd n0) (stored M)) by (apply stored_in; auto; exists k0, n0; rewrite E0; simpl; auto).
  destruct (bfirst M) eqn:BF.
  - exists (snd n0). split; auto. split; auto. split; [discriminate|]. intros _ g I. assert (HK : hclass (snd n0) = k0) by (apply (g_cls M G); rewrite E0; simpl; auto). rewrite HK.
    assert (J : In (hclass g) (k0 :: r)) by (rewrite <- Q; apply sorted_stored; eauto; split; rewrite Q; auto). destruct (sorted_hd_cls _ _ _ S J) as [Z|Z]; auto. right. split; auto.
    apply stored_in in I; auto. destruct I as (k' & m & I & <-). rewrite (g_cls M G k' m I) in Z. subst k'. eapply (sorted_hd_max (stk M k0)); eauto. apply (g_sort M G).
  - assert (MAXS : forall g, In g (stored M) -> exists k n c, In k (k0 :: r) /\ stk M k = n :: c /\ (hscore g <= nscore n)%Z).
    { intros g I. apply stored_in in I; auto. destruct I as (k' & m & I & <-). destruct (stk M k') as [|t c] eqn:Z; [destruct I|]. exists k', t, c. split; [apply SE; congruence|]. split; [exact Z|].
      rewrite <- Z in I. exact (sorted_hd_max _ t c m (g_sort M G k') Z I). }
    destruct (scan_top_ok M (k0 :: r) (snd n0) dflt) as (h & H1 & C); [intros k I; now apply SE|]. exists h. split; [exact H1|]. split; [|split; [|discriminate]].
    + destruct C as [(-> & _)|(_ & (k & n & c & _ & E1 & ->) & _)]; auto. apply stored_in; auto. exists k, n. rewrite E1. simpl; auto.
    + intros _ (g0 & I1 & L1) g I. destruct (MAXS g I) as (k & n & c & J & E1 & L). destruct C as [(_ & H2)|(_ & _ & H2)].
      * destruct (MAXS g0 I1) as (k' & n' & c' & J' & E1' & L'). pose proof (H2 _ _ _ J' E1'). lia.
      * pose proof (H2 _ _ _ J E1). lia.
Qed.
