(** Proofs about the table queries. *)
From Coq Require Import Ascii String Arith NArith QArith Lqa List Bool Lia.
From Verif Require Import AMap ContainerSpec ContainerModel ContainerProofs TrieIterSpec TrieIterModel TrieIterProofs LmSpec LmModel LmDrive LmTabProofs LmEncProofs LmIoProofs.
Import ListNotations.
Open Scope nat_scope.

Definition present (s : list nat) (t : trie nat Q) : Prop := exists d, trie_walk Nat.ltb s t = Some (Some d).
Lemma insert_present : forall k x (t t' : trie nat Q) s, twfn t -> k <> [] -> tinsert k x t = Some t' -> (s = k \/ present s t) -> present s t'.
Proof.
  intros k x t t' s W NE E H. assert (E1 : trie_ins Nat.ltb 0%Q k x t = Some t') by (destruct k; [congruence|exact E]).
  destruct (walk_ins Nat.ltb nat_st Nat.eq_dec 0%Q k x t t' s W E1) as (old & A & B). unfold present. rewrite B. unfold after_ins.
  destruct (list_eq_dec Nat.eq_dec s k); [eauto|]. destruct H as [->|(d & Ed)]; [congruence|]. rewrite Ed in A. injection A as <-. eauto.
Qed.
Lemma bump_present : forall k c (t t' : trie nat Q) s, twfn t -> k <> [] -> bump k c t = Some t' -> (s = k \/ present s t) -> present s t'.
Proof.
  intros k c t t' s W NE E H. unfold bump in E. destruct (tfind k t) as [[d|]|]; cbn [obind] in E; try discriminate; eapply insert_present; eauto.
Qed.
Definition op_hist (o : lm_op nat) : list nat := match o with OpIncr h _ _ => h | OpSet h _ _ _ => h end.
Lemma op_present : forall o t t' s, tabwf t -> tab_op o t = Some t' -> s <> [] -> (op_hist o = s \/ present s (tsi t)) -> present s (tsi t').
Proof.
  intros o t t' s [W1 W2] E NE H. destruct o as [h w c|h w cs cst]; cbn [tab_op op_hist] in *.
  - unfold incrCountsOfEntry in E. destruct (bump (h ++ [w]) c (tst t)) as [st|]; cbn [obind] in E; [|discriminate]. destruct h as [|a h].
    + injection E as <-. cbn [tsi]. destruct H; [congruence|auto].
    + destruct (bump (a :: h) c (tsi t)) as [si|] eqn:B; cbn [obind] in E; [|discriminate]. injection E as <-. cbn [tsi].
      refine (bump_present _ _ _ _ s W2 _ B _); [discriminate|destruct H; auto].
  - unfold addTableEntry in E. destruct (addSrcInfo h cs t) as [t1|] eqn:A; cbn [obind] in E; [|discriminate]. unfold addSrcTrgInfo in E.
    destruct (tinsert (h ++ [w]) cst (tst t1)) as [st|]; cbn [obind] in E; [|discriminate]. injection E as <-. cbn [tsi].
    unfold addSrcInfo in A. destruct h as [|a h].
    + injection A as <-. cbn [tsi]. destruct H; [congruence|auto].
    + destruct (tinsert (a :: h) cs (tsi t)) as [si|] eqn:B; cbn [obind] in A; [|discriminate]. injection A as <-. cbn [tsi].
      refine (insert_present _ _ _ _ s W2 _ B _); [discriminate|destruct H; auto].
Qed.
Lemma run_present : forall ops t t' s, tabwf t -> tab_run ops t = Some t' -> s <> [] -> ((exists o, In o ops /\ op_hist o = s) \/ present s (tsi t)) -> present s (tsi t').
Proof.
  induction ops as [|o ops IH]; intros t t' s W E NE H; cbn [tab_run] in E.
  - injection E as <-. destruct H as [(o & [] & _)|H]; auto.
  - destruct (tab_op_ok o t W) as (t1 & E1 & W1 & _ & _). rewrite E1 in E. cbn [obind] in E. apply (IH t1 t' s W1 E NE).
    destruct H as [(o' & [Eo|I] & P)|H].
    + right. subst o'. apply (op_present o t t1 s W E1 NE). now left.
    + left. exists o'. auto.
    + right. apply (op_present o t t1 s W E1 NE). now right.
Qed.

Lemma entries_loop_ok : forall s si l, (si = None -> forall k c, In (k, c) l -> removelast k = s -> 1 < length k -> Qeq_bool c 0 = true) ->
  exists r, entries_loop s si l = Some r /\
   forall w cs c, In (w, (cs, c)) r <-> (si = Some cs /\ Qeq_bool c 0 = false /\ exists k, In (k, c) l /\ removelast k = s /\ last k 0 = w /\ 1 < length k).
Proof.
  intros s si l. induction l as [|[k c] l IH]; intro H; cbn [entries_loop].
  - exists []. split; [reflexivity|]. intros. split; [intros []|]. intros (_ & _ & k & [] & _).
  - assert (H' : si = None -> forall k c, In (k, c) l -> removelast k = s -> 1 < length k -> Qeq_bool c 0 = true) by (intros; eapply H; eauto; now right).
    destruct (IH H') as (r & E & C).
    assert (SK : forall x, (Qeq_bool c 0 = true \/ ~ 1 < length k \/ removelast k <> s) -> x = entries_loop s si l ->
      exists r, x = Some r /\ forall w cs c0, In (w, (cs, c0)) r <-> (si = Some cs /\ Qeq_bool c0 0 = false /\ exists k0, In (k0, c0) ((k, c) :: l) /\ removelast k0 = s /\ last k0 0 = w /\ 1 < length k0)).
    { intros x Hx ->. exists r. split; [exact E|]. intros w cs c0. rewrite C. split; intros (A & B & k0 & I & P1 & P2 & P3); split; auto; split; auto; exists k0; split; auto; [now right|].
      destruct I as [I|I]; auto. injection I as -> ->. destruct Hx as [Hx|[Hx|Hx]]; [congruence|lia|congruence]. }
    destruct (Qeq_bool c 0) eqn:Z; [apply SK; auto|]. destruct (Nat.ltb_spec 1 (length k)); [|apply SK; auto; right; left; lia].
    destruct (list_eq_dec Nat.eq_dec (removelast k) s) as [Es|]; [|apply SK; auto].
    destruct si as [cs|]; [|specialize (H eq_refl k c (or_introl eq_refl) Es H0); congruence].
    rewrite E. cbn [obind]. exists ((last k 0, (cs, c)) :: r). split; [reflexivity|]. intros w cs' c0. cbn [In]. rewrite C. split.
    + intros [I|(A & B & k0 & I & P)].
      * injection I as <- <- <-. split; auto. split; auto. exists k. split; [now left|auto].
      * split; auto. split; auto. exists k0. split; [now right|auto].
    + intros (A & B & k0 & [I|I] & P1 & P2 & P3).
      * injection I as -> ->. left. subst w. injection A as ->. reflexivity.
      * right. split; auto. split; auto. exists k0. auto.
Qed.
Lemma entries_nodup : forall s si l r, NoDup (map fst l) -> entries_loop s si l = Some r -> NoDup (map fst r).
Proof.
  intros s si l. induction l as [|[k c] l IH]; intros r ND E; cbn [entries_loop] in E.
  - injection E as <-. constructor.
  - inversion ND as [|? ? NI ND']; subst. destruct (Qeq_bool c 0); [now apply IH|]. destruct (1 <? length k) eqn:L; [|now apply IH].
    destruct (list_eq_dec Nat.eq_dec (removelast k) s) as [Es|]; [|now apply IH]. destruct si as [cs|]; [|discriminate].
    destruct (entries_loop s (Some cs) l) as [r'|] eqn:G; cbn [obind] in E; [|discriminate]. injection E as <-. cbn [map fst]. constructor; [|now apply IH].
    intro I. apply in_map_iff in I. destruct I as ([w [cs' c']] & Ew & I). cbn [fst] in Ew.
    destruct (entries_loop_ok s (Some cs) l ltac:(discriminate)) as (r2 & E2 & C). rewrite G in E2. injection E2 as <-.
    apply C in I. destruct I as (_ & _ & k0 & I0 & P1 & P2 & P3). apply NI. apply in_map_iff. exists (k0, c'). split; auto. cbn [fst].
    apply Nat.ltb_lt in L. rewrite (app_removelast_last 0 (l := k)) by (destruct k; [cbn in L; lia|discriminate]).
    rewrite (app_removelast_last 0 (l := k0)) by (destruct k0; [cbn in P3; lia|discriminate]). congruence.
Qed.

Theorem entries_for_source : forall ops t s, tab_run ops tab0 = Some t -> s <> [] ->
  exists l, getEntriesForSource s t = Some l /\ NoDup (map fst l) /\
    forall w cs c, In (w, (cs, c)) l <-> (cSrcTrg s w t = Some c /\ Qeq_bool c 0 = false /\ cSrc s t = Some cs).
Proof.
  intros ops t s E NE. destruct (tab_run_ok ops tab0 tab0_wf) as (t' & E' & W & A & B). assert (t' = t) by congruence. subst t'.
  unfold getEntriesForSource. destruct (tfind_val s (tsi t) (proj2 W) NE) as (si & Es & Vs). rewrite Es. cbn [obind].
  destruct (trie_entries (tst t)) as [l|] eqn:El; [|rewrite entries_post in El; discriminate]. cbn [obind].
  destruct (entries_exact Nat.ltb nat_st (tst t) l (proj1 W) El) as [[ND X] _].
  assert (HN : si = None -> forall k c, In (k, c) l -> removelast k = s -> 1 < length k -> Qeq_bool c 0 = true).
  { intros -> k c I P L. apply X in I. destruct (Qeq_bool c 0) eqn:Z; auto. exfalso.
    assert (NK : k <> []) by (destruct k; [cbn in L; lia|discriminate]).
    assert (K : k = s ++ [last k 0]) by (rewrite <- P; now apply app_removelast_last).
    assert (V : vst s (last k 0) t = c). { unfold vst, val. rewrite <- K, I. reflexivity. }
    rewrite A, (proj1 (tab0_val s (last k 0))) in V.
    destruct (ngram_touched ops s (last k 0) 0%Q) as (o & Io & Po). { rewrite V. intros ->. discriminate. }
    assert (PR : present s (tsi t)). { apply (run_present ops tab0 t s tab0_wf E NE). left. exists o. split; [exact Io|]. destruct o; cbn; tauto. }
    destruct PR as (d & Ed). destruct s; [congruence|]. unfold trie_find in Es. rewrite Ed in Es. discriminate. }
  destruct (entries_loop_ok s si l HN) as (r & Er & C). exists r. split; [exact Er|]. split; [eapply entries_nodup; eauto|].
  intros w cs c. rewrite C, cSrcTrg_val, cSrc_val by auto. unfold vst. assert (Q0 : vs s t = match si with Some d => d | None => 0%Q end) by (unfold vs; destruct s; [congruence|exact Vs]).
  split.
  - intros (-> & Z & k & I & P1 & P2 & L). apply X in I. assert (NK : k <> []) by (destruct k; [cbn in L; lia|discriminate]).
    assert (K : k = s ++ [w]) by (rewrite <- P1, <- P2; now apply app_removelast_last). subst k. unfold val. rewrite I. split; auto. split; auto. now rewrite Q0.
  - intros (Ec & Z & Ecs). injection Ec as Ec. injection Ecs as Ecs. unfold val in Ec.
    destruct (trie_walk Nat.ltb (s ++ [w]) (tst t)) as [[d|]|] eqn:Wk; try (subst c; discriminate). subst d.
    assert (I : In (s ++ [w], c) l) by (apply X; exact Wk).
    destruct si as [d|].
    + subst cs. rewrite Q0. split; auto. split; auto. exists (s ++ [w]). split; auto. rewrite removelast_last, last_last. split; auto. split; auto.
      rewrite app_length. destruct s; [congruence|cbn; lia].
    + exfalso. specialize (HN eq_refl _ _ I). rewrite removelast_last, app_length in HN. specialize (HN eq_refl). rewrite HN in Z; [discriminate|]. destruct s; [congruence|cbn; lia].
Qed.
Lemma entries_empty_source : forall t l, getEntriesForSource [] t = Some l -> l = [].
Proof.
  intros t l. unfold getEntriesForSource. destruct (tfind [] (tsi t)) as [si|]; cbn [obind]; [|discriminate]. destruct (trie_entries (tst t)) as [es|]; cbn [obind]; [|discriminate].
  revert l. induction es as [|[k c] es IH]; intros l E; cbn [entries_loop] in E; [now injection E as <-|].
  destruct (Qeq_bool c 0); auto. destruct (Nat.ltb_spec 1 (length k)); auto. destruct (list_eq_dec Nat.eq_dec (removelast k) []) as [R|]; auto.
  exfalso. destruct k as [|a [|b k]]; cbn in H; try lia. discriminate.
Qed.
