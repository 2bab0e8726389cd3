(** What the search needs to know about the container. *)
From Coq Require Import ZArith Arith List Bool Lia Sorted Permutation.
From Verif Require Import AMap StackSpec StackModel StackProofs MultiStackProofs MultiStack2Proofs MultiStack3Proofs.
Import ListNotations.
Open Scope nat_scope.

Definition flat (c : list (cls * list node)) : list hyp := flat_map (fun e => map snd (snd e)) c.
Definition getd (k : cls) (c : list (cls * list node)) : list node := match aget cls_dec k c with Some l => l | None => [] end.
Lemma adel_notin : forall k (c : list (cls * list node)), ~ In k (map fst c) -> adel cls_dec k c = c.
Proof. induction c as [|[k' l] c IH]; intro N; cbn; auto. destruct (cls_dec k k') as [->|]; [exfalso; apply N; now left|]. f_equal. apply IH. intro; apply N; now right. Qed.
Lemma flat_adel : forall k c, awf c -> Permutation (flat c) (map snd (getd k c) ++ flat (adel cls_dec k c)).
Proof.
  induction c as [|[k' l] c IH]; intro W; [reflexivity|]. inversion W; subst. unfold getd. cbn [aget adel flat flat_map snd fst]. destruct (cls_dec k k') as [->|N].
  - try rewrite adel_notin by auto. reflexivity.
  - cbn [flat_map]. fold (flat c). fold (getd k c). cbn [snd]. fold (flat (adel cls_dec k c)). rewrite (IH H2). rewrite !app_assoc. apply Permutation_app_tail. apply Permutation_app_comm.
Qed.
Lemma flat_ext : forall c1 c2, awf c1 -> awf c2 -> (forall k, getd k c1 = getd k c2) -> Permutation (flat c1) (flat c2).
Proof.
  induction c1 as [|[k l] c1 IH]; intros c2 W1 W2 E.
  - assert (F : flat c2 = []); [|rewrite F; reflexivity].
    assert (A : forall k l, In (k, l) c2 -> l = []). { intros k l Ik. specialize (E k). unfold getd in E. assert (X : aget cls_dec k c2 = Some l) by (now apply aget_in). rewrite X in E. auto. }
    clear E W1 W2. induction c2 as [|[k l] c2 IH]; auto. cbn [flat flat_map snd]. rewrite (A k l (or_introl eq_refl)). cbn. apply IH. intros; eapply A; right; eauto.
  - inversion W1; subst. rewrite (flat_adel k c2 W2). cbn [flat flat_map snd]. rewrite <- E. unfold getd at 1. cbn [aget]. destruct (cls_dec k k) as [_|N]; [|congruence].
    apply Permutation_app_head. apply IH; auto; [now apply adel_wf|]. intro k'. unfold getd at 2. rewrite aget_adel by auto.
    specialize (E k'). unfold getd in E. cbn [aget] in E. unfold getd. destruct (cls_dec k' k) as [->|N]; auto.
    destruct (aget cls_dec k c1) eqn:Q; auto. exfalso. apply H1. apply aget_some_in in Q. apply in_map_iff. eexists. split; [|exact Q]. reflexivity.
Qed.
Lemma stored_ext : forall M M', G0 M -> G0 M' -> (forall k, stk M k = stk M' k) -> Permutation (stored M) (stored M').
Proof. intros M M' G G' E. apply flat_ext; [apply (g_wf M G)|apply (g_wf M' G')|exact E]. Qed.
Lemma stored_split : forall M k, G0 M -> Permutation (stored M) (map snd (stk M k) ++ flat (adel cls_dec k (conts M))).
Proof. intros M k G. exact (flat_adel k (conts M) (g_wf M G)). Qed.
Lemma rest_ext : forall M M' k, G0 M -> G0 M' -> (forall k', k' <> k -> stk M' k' = stk M k') ->
  Permutation (flat (adel cls_dec k (conts M'))) (flat (adel cls_dec k (conts M))).
Proof.
  intros M M' k G G' E. apply flat_ext; [apply adel_wf, (g_wf M' G')|apply adel_wf, (g_wf M G)|].
  intro k'. unfold getd. rewrite !aget_adel by (apply (g_wf M' G') || apply (g_wf M G)). destruct (cls_dec k' k); auto. exact (E k' n).
Qed.

(** invariant of the container during a search *)
Definition below (M : mstack) : Prop := forall h, In h (stored M) -> exists i sc, aget Nat.eq_dec (hstate h) (sdict M) = Some (i, sc) /\ (hscore h <= sc)%Z.
Definition SInv (M : mstack) : Prop := G0 M /\ GS M /\ mmax M <> 0 /\ below M.
Lemma SInv_empty : forall max b, max <> 0 -> SInv (set_bf b (ms_empty max)).
Proof.
  intros max b N. destruct (step_ok (ms_empty max) (SetBf b)) as (M' & E & G & S & X); [apply G0_empty|apply G0_empty|auto|]. cbn [ms_step] in E. inversion E; subst.
  split; [auto|]. split; [auto|]. split; [auto|]. intros h [].
Qed.
Lemma SInv_bf : forall M b, SInv M -> SInv (set_bf b M).
Proof.
  intros M b (G & S & N & B). destruct (step_ok M (SetBf b) G S N) as (M' & E & G' & S' & X). cbn [ms_step] in E. inversion E; subst. exact (conj G' (conj S' (conj N B))).
Qed.
Lemma in_stk_stored : forall M k n, G0 M -> In n (stk M k) -> In (snd n) (stored M).
Proof. intros. apply stored_in; eauto. Qed.

Theorem push_spec : forall M h, SInv M -> exists b M', ms_push h M = Some (b, M') /\ SInv M' /\ mmax M' = mmax M /\ bfirst M' = bfirst M /\
  (exists kept gone, Permutation (stored M) (kept ++ gone) /\ (Permutation (stored M') kept \/ Permutation (stored M') (h :: kept))) /\
  (b = true -> In h (stored M')) /\
  (forall s i sc, aget Nat.eq_dec s (sdict M') = Some (i, sc) -> (exists i', aget Nat.eq_dec s (sdict M) = Some (i', sc)) \/ (s = hstate h /\ sc = hscore h)) /\
  (length (stored M) < mmax M -> In h (stored M') \/ exists i sc, aget Nat.eq_dec (hstate h) (sdict M) = Some (i, sc) /\ (hscore h < sc)%Z) /\
  (length (stored M) < mmax M -> forall g, In g (stored M) -> In g (stored M') \/ (hstate g = hstate h /\ (hscore g <= hscore h)%Z /\ In h (stored M'))).
Proof.
  intros M h (G & S & MX & B). destruct (push_ok M h G S MX) as (b & M' & E & G' & S' & (X1 & X2 & O & C)). exists b, M'. split; [exact E|].
  pose proof (stored_split M (hclass h) G) as SP.
  assert (LS : length (stk M (hclass h)) <= length (stored M)). { rewrite (Permutation_length SP), app_length, map_length. apply Nat.le_add_r. }
  (* the two outcomes in which nothing is stored *)
  assert (SAME : (forall k, stk M' k = stk M k) -> (forall s i sc, aget Nat.eq_dec s (sdict M) = Some (i, sc) -> s <> hstate h -> aget Nat.eq_dec s (sdict M') = Some (i, sc)) ->
      (forall i sc, aget Nat.eq_dec (hstate h) (sdict M) = Some (i, sc) -> exists i' sc', aget Nat.eq_dec (hstate h) (sdict M') = Some (i', sc') /\ (sc <= sc')%Z) ->
      Permutation (stored M') (stored M) /\ below M').
  { intros K D1 D2. assert (P : Permutation (stored M') (stored M)) by (now apply stored_ext). split; auto.
    intros g Ig. apply (Permutation_in _ P) in Ig. destruct (B g Ig) as (i & sc & A & L). destruct (Nat.eq_dec (hstate g) (hstate h)) as [Q|Q].
    - rewrite Q in *. destruct (D2 _ _ A) as (i' & sc' & A' & L'). exists i', sc'. split; [auto|lia].
    - exists i, sc. split; auto. }
  destruct C as [(i & sc & A & L & Eb & K & R & D)|(LE & D & C)].
  - destruct SAME as (P & B'); [exact K|intros; now rewrite D|intros i' sc' Q; rewrite D; exists i', sc'; split; [auto|lia]|].
    split; [split; [auto|split; [auto|split; [congruence|auto]]]|]. split; [auto|]. split; [auto|].
    split; [exists (stored M), []; rewrite app_nil_r; auto|]. split; [congruence|].
    split; [intros s j z Q; left; rewrite D in Q; eauto|]. split; [intro; right; exists i, sc; auto|].
    intros _ g Ig. left. apply (Permutation_in _ (Permutation_sym P)). auto.
  - assert (DA : forall s, aget Nat.eq_dec s (sdict M') = if Nat.eq_dec s (hstate h) then Some (match aget Nat.eq_dec (hstate h) (sdict M) with Some (i, _) => i | None => length (sdict M) end, hscore h)
                            else aget Nat.eq_dec s (sdict M)) by (intro s; rewrite D; unfold dict_after; apply dict_create_get).
    assert (DOK : forall s i sc, aget Nat.eq_dec s (sdict M') = Some (i, sc) -> (exists i', aget Nat.eq_dec s (sdict M) = Some (i', sc)) \/ (s = hstate h /\ sc = hscore h)).
    { intros s i sc Q. rewrite DA in Q. destruct (Nat.eq_dec s (hstate h)); [right; inversion Q; auto|left; eauto]. }
    destruct C as [(Eb & M1 & INS & _ & K)|(Eb & K & _ & _ & LL)].
    + pose proof (inserted_split _ _ _ _ _ INS) as (r & Er & SUB & _). change (next (set_dict M (dict_after M h))) with (next M) in Er. change (stk (set_dict M (dict_after M h))) with (stk M) in SUB.
      rewrite <- K in Er.
      assert (HIN : In h (stored M')). { apply (in_stk_stored M' (hclass h) (next M, h)); auto. rewrite Er. apply insert_in. auto. }
      pose proof (stored_split M' (hclass h) G') as SP'. pose proof (rest_ext M M' (hclass h) G G' O) as RE.
      assert (RM : exists g, Permutation (stk M (hclass h)) (r ++ g)).
      { destruct INS as (l1 & CC & [(_ & Q1 & _)|(r1 & m & im & sm & Q1 & Q2 & Q3 & _)]); change (stk (set_dict M (dict_after M h))) with (stk M) in *;
        change (next (set_dict M (dict_after M h))) with (next M) in *; change (recinfo (set_dict M (dict_after M h))) with (recinfo M) in *.
        - assert (PR : Permutation r l1). { rewrite K, Q1 in Er. apply (Permutation_cons_inv (a := (next M, h))). rewrite <- !insert_perm. now rewrite Er. }
          destruct CC as [(_ & ->)|(id' & _ & Ee)]; [exists []; rewrite app_nil_r; now symmetry|].
          apply erase_split in Ee. destruct Ee as (a & n & b0 & -> & -> & _). exists [n]. rewrite PR. rewrite <- app_assoc.
          apply Permutation_app_head. apply Permutation_cons_append.
        - assert (PR : Permutation r r1). { rewrite K, Q3 in Er. apply (Permutation_cons_inv (a := (next M, h))). rewrite <- !insert_perm. now rewrite Er. }
          exists [m]. rewrite <- Q2, Q1. now rewrite PR. }
      destruct RM as (gn & PG).
      assert (B' : below M').
      { intros g Ig. apply (Permutation_in _ SP') in Ig. rewrite Er in Ig. apply in_app_iff in Ig. destruct (Nat.eq_dec (hstate g) (hstate h)) as [Q|Q].
        - eexists. eexists. rewrite DA. destruct (Nat.eq_dec (hstate g) (hstate h)); [|congruence]. split; [reflexivity|].
          assert (OLD : In g (stored M) -> (hscore g <= hscore h)%Z). { intro J. destruct (B g J) as (i & sc & A & L). rewrite Q in A. specialize (LE _ _ A). lia. }
          destruct Ig as [Ig|Ig]; [apply in_map_iff in Ig; destruct Ig as (n & <- & Ig); apply insert_in in Ig; destruct Ig as [->|Ig]; [cbn; lia|]; apply OLD; apply (in_stk_stored M (hclass h)); auto|].
          apply OLD. apply (Permutation_in _ (Permutation_sym SP)). apply in_app_iff. right. now apply (Permutation_in _ RE).
        - assert (J : In g (stored M)).
          { apply (Permutation_in _ (Permutation_sym SP)). apply in_app_iff. destruct Ig as [Ig|Ig]; [left|right; now apply (Permutation_in _ RE)].
            apply in_map_iff in Ig. destruct Ig as (n & <- & Ig). apply insert_in in Ig. destruct Ig as [->|Ig]; [now contradiction Q|]. apply in_map. auto. }
          destruct (B g J) as (i & sc & A & L). exists i, sc. rewrite DA. destruct (Nat.eq_dec (hstate g) (hstate h)); [congruence|auto]. }
      split; [split; [auto|split; [auto|split; [congruence|auto]]]|]. split; [auto|]. split; [auto|]. split.
      { exists (map snd r ++ flat (adel cls_dec (hclass h) (conts M))), (map snd gn). split.
        - rewrite SP, PG, map_app, <- !app_assoc. apply Permutation_app_head. apply Permutation_app_comm.
        - right. rewrite SP', RE, Er. change (h :: map snd r ++ ?x) with ((map snd ((next M, h) :: r)) ++ x). apply Permutation_app_tail. apply Permutation_map. apply insert_perm. }
      split; [auto|]. split; [auto|]. split; [auto|]. intros RO g Ig.
      destruct (Nat.eq_dec (hstate g) (hstate h)) as [Q|NQ].
      { right. split; [auto|]. split; [|auto]. destruct (B g Ig) as (i & sc & A & L). rewrite Q in A. specialize (LE _ _ A). lia. }
      left. apply (Permutation_in _ (Permutation_sym SP')). apply in_app_iff. apply (Permutation_in _ SP) in Ig. apply in_app_iff in Ig.
      destruct Ig as [Ig|Ig]; [left|right; now apply (Permutation_in _ (Permutation_sym RE))].
      apply in_map_iff in Ig. destruct Ig as (n & <- & J). apply in_map. rewrite K.
      destruct INS as (l1 & CC & [(_ & Q1 & _)|(r1 & m & im & sm & Q1 & Q2 & _ & LM & _)]).
      * rewrite Q1. apply insert_in. right. change (stk (set_dict M (dict_after M h))) with (stk M) in *. change (recinfo (set_dict M (dict_after M h))) with (recinfo M) in *.
        destruct CC as [(_ & ->)|(id' & RP & Ee)]; auto. apply erase_split in Ee. destruct Ee as (a & n0 & b0 & El & -> & En). rewrite El in J. apply in_mid_other with (n := n0); auto. intro X. subst n0.
        destruct (g_rec M G _ _ _ RP) as (n2 & J2 & E2 & sc2 & D2). assert (n2 = n) by (apply (nodup_ids (stk M (hclass h))); auto; [apply (g_ids M G)|rewrite El; auto|congruence]). subst n2.
        unfold idx_after in RP, D2. destruct (aget Nat.eq_dec (hstate h) (sdict M)) as [[j s]|] eqn:Z.
        -- destruct (g_dict M G) as (_ & _ & INJ). apply NQ. eapply INJ; eauto.
        -- destruct (g_dict M G) as (_ & BD & _). apply BD in D2. lia.
      * exfalso. change (stk (set_dict M (dict_after M h))) with (stk M) in *. destruct LM as (_ & LM). simpl in LM. rewrite Q2 in LM. lia.
    + destruct SAME as (P & B').
      { exact K. }
      { intros s i sc Q N. rewrite DA. destruct (Nat.eq_dec s (hstate h)); [congruence|auto]. }
      { intros i sc Q. eexists. eexists. rewrite DA. destruct (Nat.eq_dec (hstate h) (hstate h)); [|congruence]. split; [reflexivity|]. eapply LE; eauto. }
      split; [split; [auto|split; [auto|split; [congruence|auto]]]|]. split; [auto|]. split; [auto|].
      split; [exists (stored M), []; rewrite app_nil_r; auto|]. split; [congruence|]. split; [auto|]. split; [intro; lia|].
      intros _ g Ig. left. apply (Permutation_in _ (Permutation_sym P)). auto.
Qed.

Theorem pop_spec : forall M, SInv M -> ms_isempty M = false -> exists h M', ms_pop M = Some (h, M') /\ SInv M' /\ mmax M' = mmax M /\ bfirst M' = bfirst M /\
  sdict M' = sdict M /\ Permutation (stored M) (h :: stored M') /\
  (bfirst M = false -> forall g, In g (stored M) -> (hscore g <= hscore h)%Z) /\
  (bfirst M = true -> forall g, In g (stored M) -> cls_lt (hclass h) (hclass g) \/ (hclass g = hclass h /\ (hscore g <= hscore h)%Z)).
Proof.
  intros M (G & S & MX & B) NE. assert (NS : sorted M <> []) by (intro Q; apply empty_iff in Q; congruence).
  destruct (pop_ok M G S NS) as (k & n & b & M' & E & D & BT & BF). exists (snd n), M'. split; [exact E|].
  destruct (dropped_ok _ _ _ _ _ _ G S D) as (G' & S'). pose proof (dropped_stored _ _ _ _ _ _ G D) as P.
  assert (F : mmax M' = mmax M /\ bfirst M' = bfirst M /\ sdict M' = sdict M).
  { destruct D as (_ & _ & i & sc & _ & ->). destruct (finish_same k ([] ++ b) (drop M k i ([] ++ b))) as (-> & _ & -> & -> & _). repeat split. }
  destruct F as (F1 & F2 & F3). split; [split; [auto|split; [auto|split; [congruence|]]]|].
  { intros g Ig. rewrite F3. apply B. apply (Permutation_in _ (Permutation_sym P)). now right. }
  split; [auto|]. split; [auto|]. split; [auto|]. split; [auto|]. split.
  - intros Bf g Ig. apply stored_in in Ig; auto. destruct Ig as (k' & m & Im & <-). apply (BF Bf k' m Im).
  - intros Bt g Ig. apply stored_in in Ig; auto. destruct Ig as (k' & m & Im & <-).
    destruct D as (Es & Ik & _). cbn [app] in Es. assert (Hn : hclass (snd n) = k) by (apply (g_cls M G); rewrite Es; now left).
    rewrite (g_cls M G k' m Im), Hn. assert (Ik' : In k' (sorted M)) by (apply S; intro Q; rewrite Q in Im; destruct Im).
    destruct (BT Bt k' Ik') as [->|L]; [right|left; auto]. split; auto. apply (sorted_hd_max (stk M k) n b m); auto. apply (g_sort M G).
Qed.
Lemma empty_stored : forall M, SInv M -> (ms_isempty M = true <-> stored M = []).
Proof.
  intros M (G & S & _ & _). rewrite empty_iff. split; intro Q.
  - destruct (stored M) eqn:E; auto. exfalso. apply (nonempty_stored M G S); [rewrite E; discriminate|auto].
  - destruct (sorted M) as [|k r] eqn:E; auto. exfalso. assert (I : In k (sorted M)) by (rewrite E; now left). apply sorted_stored in I; auto.
    destruct I as (g & Ig & _). rewrite Q in Ig. destruct Ig.
Qed.
(** top in breadth-first mode *)
Lemma top_spec : forall M d, SInv M -> bfirst M = true -> ms_isempty M = false -> exists h, ms_top d M = Some h /\ In h (stored M) /\
  forall g, In g (stored M) -> cls_lt (hclass h) (hclass g) \/ (hclass g = hclass h /\ (hscore g <= hscore h)%Z).
Proof.
  intros M d (G & S & MX & B) Bt NE. unfold ms_top. destruct S as (S1 & S2). unfold ms_isempty in NE. destruct (sorted M) as [|k0 r] eqn:Q; [discriminate|].
  assert (T0 : exists n0 b0, stk M k0 = n0 :: b0). { destruct (stk M k0) eqn:X; [|eauto]. exfalso. now apply (proj1 (S2 k0) (or_introl eq_refl)). }
  destruct T0 as (n0 & b0 & E0). rewrite E0. cbn [st_top]. rewrite Bt. exists (snd n0). split; [reflexivity|].
  split; [apply (in_stk_stored M k0); auto; rewrite E0; now left|]. intros g Ig. apply stored_in in Ig; auto. destruct Ig as (k' & m & Im & <-).
  rewrite (g_cls M G k' m Im). rewrite (g_cls M G k0 n0) by (rewrite E0; now left).
  assert (Ik' : In k' (k0 :: r)) by (apply S2; intro X; rewrite X in Im; destruct Im).
  destruct (sorted_hd_cls _ _ _ S1 Ik') as [->|L]; [right|left; auto]. split; auto. apply (sorted_hd_max (stk M k0) n0 b0 m); auto. apply (g_sort M G).
Qed.
