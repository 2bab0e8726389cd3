From Coq Require Import Ascii String Arith ZArith List Bool Lia.
From Verif Require Import EditDistSpec EditDistModel EditDistProofs TextSpec TextModel EcSpec EcModel EcProofs EcwSpec EcwModel EcwProofs EcwGraph EcwInv.
Import ListNotations.
Open Scope Z_scope.

(** ** removing the last columns *)
Lemma removelast_firstn1 : forall A (l : list A), removelast l = firstn (length l - 1) l.
Proof. intros A l. rewrite <- (firstn_all l) at 1. destruct l as [|a l]; [reflexivity|]. replace (length (a :: l)) with (S (length l)) at 1 by reflexivity.
  rewrite removelast_firstn by (simpl; lia). f_equal. simpl. lia. Qed.
Lemma iter_removelast : forall A d (l : list A), iter_n d (@removelast A) l = firstn (length l - d) l.
Proof.
  intros A d l. induction d as [|d IH].
  - cbn. rewrite Nat.sub_0_r, firstn_all. reflexivity.
  - unfold iter_n in *. cbn [Nat.iter nat_rect]. change (nat_rect _ l (fun _ => @removelast A) d) with (Nat.iter d (@removelast A) l). rewrite IH, removelast_firstn1, firstn_firstn, firstn_length. f_equal. lia.
Qed.
Lemma iter_pop1 : forall A d (l : list A), (d < length l)%nat -> iter_n d (@pop1 A) l = firstn (length l - d) l.
Proof.
  intros A d l. induction d as [|d IH]; intro H.
  - cbn. rewrite Nat.sub_0_r, firstn_all. reflexivity.
  - unfold iter_n in *. cbn [Nat.iter nat_rect]. change (nat_rect _ l (fun _ => @pop1 A) d) with (Nat.iter d (@pop1 A) l). rewrite IH by lia. unfold pop1.
    rewrite firstn_length. destruct (Nat.ltb_spec 1 (Nat.min (length l - d) (length l))); [|lia].
    rewrite removelast_firstn1, firstn_firstn, firstn_length. f_equal. lia.
Qed.
Lemma iter_rem : forall d e, scrVec (iter_n d removeLastPosFromEsi e) = iter_n d (@pop1 Z) (scrVec e) /\ opIdVec (iter_n d removeLastPosFromEsi e) = iter_n d (@pop1 eop) (opIdVec e).
Proof. intros d e. induction d as [|d [I1 I2]]; [auto|]. unfold iter_n in *. cbn [Nat.iter nat_rect]. unfold removeLastPosFromEsi at 1 3. cbn [scrVec opIdVec]. 
  fold (Nat.iter d removeLastPosFromEsi e). fold (Nat.iter d (@pop1 Z) (scrVec e)). fold (Nat.iter d (@pop1 eop) (opIdVec e)). now rewrite I1, I2. Qed.
Lemma nth_firstn_lt : forall A (l : list A) d n j, (j < n)%nat -> nth j (firstn n l) d = nth j l d.
Proof. intros A l d n. revert l. induction n as [|n IH]; intros [|x l] [|j] H; try lia; auto. cbn. apply IH. lia. Qed.
Lemma nth_error_firstn_lt : forall A (l : list A) n j, (j < n)%nat -> nth_error (firstn n l) j = nth_error l j.
Proof. intros A l n. revert l. induction n as [|n IH]; intros [|x l] [|j] H; try lia; auto. cbn. apply IH. lia. Qed.

Section R.
Variables hc ic sc dc ecmW wgW : Z.
Variable G : list warc.
Variable s0 : Z.
Variable Sc : nat -> Z.
Hypothesis DC : 0 < dc.
Hypothesis EW : 0 < ecmW.
Hypothesis WN : forall arc w, In arc G -> In w (a_words arc) -> w <> [].
Hypothesis TP : topo (map tup G).
Hypothesis SC : forall s ws c, gpath (map tup G) s0 s ws c -> wgW * c = wgW * Sc s.
Notation D := (D hc ic sc dc).
Notation arc_ok := (arc_ok hc ic sc dc).
Notation esi_ok := (esi_ok hc ic sc dc).
Notation mcol := (mcol hc ic sc dc).
Notation P := (P G s0).
Notation into := (into G).
Notation Full := (Full hc ic sc dc ecmW wgW G s0 Sc).

Lemma SC0 : wgW * s0 = wgW * Sc 0.
Proof. apply (SC 0 [] s0). constructor. Qed.
Lemma into_pos : forall a s, into a s -> s <> 0%nat.
Proof. intros a s (b & arc & _ & E & <-). eapply succ_pos; eauto. Qed.

Lemma D_row0 : forall p j, D p [] j = row0 (pins0 ic p) j.
Proof. reflexivity. Qed.
Lemma mset_0 : forall (g : list str -> Z), mset (P 0) g (g []).
Proof. intro g. split; [exists []; split; [now apply P0|reflexivity]|]. intros ws H. apply P0 in H; [|auto]. subst. lia. Qed.

Lemma init_full : forall p, exists st, initVars dc ecmW wgW G s0 = Some st /\ Full p 1 st.
Proof.
  intro p. unfold initVars. set (st := updateBestInit _ _ _ _).
  set (f := fun (prev : list Z) (w : str) (_ : esi) => constructEsi dc prev w).
  assert (BL : forall s, into (length G) s -> lens 0 st s).
  { intros s H. apply into_pos in H. unfold lens, st, updateBestInit, upd. cbn [esiS bestS predS]. destruct (Nat.eqb_spec s 0); [congruence|]. auto. }
  assert (BA : forall b arc, nth_error G b = Some arc -> 0%nat <> 0%nat -> arc_ok p 0 (P (a_pred arc)) [] (esiS st (a_pred arc)) (a_words arc) (esiA st b)) by (intros; congruence).
  assert (FOK : forall Q ws prev es, (forall w, In w ws -> w <> []) -> length prev = 1%nat -> (forall j, (j < 1)%nat -> mcol p Q [] j (nth j prev 0)) ->
    (0%nat <> 0%nat -> arc_ok p 0 Q [] prev ws es) ->
    exists es', arc_words f prev ws es = Some es' /\ (0%nat <> 0%nat -> Forall2 (eagree 0) es es') /\ arc_ok p 1 Q [] prev ws es').
  { intros Q ws prev es _ L M _. destruct (arc_construct_ok hc ic sc dc p Q ws [] prev es) as (es' & E & OK); [lia|apply M; lia|]. exists es'. split; [exact E|]. split; [congruence|exact OK]. }
  assert (BV : forall s j, into (length G) s -> (j < 0)%nat -> mset (P s) (fun ws => D p ws j) (nth j (esiS st s) 0)) by (intros; lia).
  destruct (proc_arcs_ok hc ic sc dc ecmW wgW G s0 Sc EW WN TP SC p 0 1 st f 0 ltac:(lia) ltac:(lia) eq_refl BL BA FOK BV G 0 st eq_refl ltac:(lia)) as (st' & E & IV).
  - constructor.
    + split; [|split; [|split]].
      * unfold lens, st, updateBestInit, upd. cbn. auto.
      * exists s0. split; [reflexivity|exact SC0].
      * intros j Hj. assert (j = 0)%nat by lia. subst j. split; [exact (mset_0 (fun ws => D p ws 0))|].
        unfold bcol, st, updateBestInit, upd. cbn [esiS bestS Nat.eqb]. cbn [map nth scrVec constructInitEsi]. now rewrite SC0.
      * intros; lia.
    + intros s (b & arc & H & _). lia.
    + auto.
    + intros; lia.
    + intros; lia.
    + auto.
  - exists st'. split; [exact E|]. eapply (Inv_full hc ic sc dc ecmW wgW G s0 Sc TP p 0 1 st 0); try eassumption; try lia; intros; lia.
Qed.

(** ** shrinking *)
Lemma arc_ok_shrink : forall p K d Q ws u prev es, (d < K)%nat -> arc_ok p K Q u prev ws es -> arc_ok p (K - d) Q u prev ws (map (iter_n d removeLastPosFromEsi) es).
Proof.
  intros p K d Q ws. induction ws as [|w ws IH]; intros u prev [|e es] Hd A; cbn in A; try tauto.
  destruct A as [(L1 & L2 & H) R]. cbn [map EcwGraph.arc_ok]. destruct (iter_rem d e) as [I1 I2].
  rewrite iter_pop1 in I1, I2 by lia. rewrite L1 in I1. rewrite L2 in I2.
  split.
  - unfold EcwGraph.esi_ok. rewrite I1, I2, !firstn_length. split; [lia|]. split; [lia|]. intros j Hj. destruct (H j ltac:(lia)) as (A & B & (i & C1 & C2 & C3)).
    rewrite nth_firstn_lt by auto. split; [exact A|]. split.
    + destruct j as [|j]; cbn [opshape] in *; rewrite nth_error_firstn_lt by auto; auto.
    + exists i. split; [|split; [auto|]].
      * rewrite <- C1. apply lastIns_eq. intros i' Hi'. apply nth_error_firstn_lt. lia.
      * intros x. rewrite nth_firstn_lt by auto. auto.
  - eapply arc_ok_prev; [|apply IH; [exact Hd|exact R]]. intros i Hi. rewrite I1. now rewrite nth_firstn_lt.
Qed.
Lemma lastrow_shrink : forall d n prev es j, (d < n)%nat -> length prev = n -> Forall (fun e => length (scrVec e) = n) es -> (j < n - d)%nat ->
  nth j (lastrow (iter_n d (@pop1 Z) prev) (map (iter_n d removeLastPosFromEsi) es)) 0 = nth j (lastrow prev es) 0.
Proof.
  intros d n prev es j Hd L F Hj. destruct es as [|e es] using rev_ind.
  - cbn. rewrite iter_pop1 by lia. apply nth_firstn_lt. lia.
  - assert (LR : forall pr l (x : esi), lastrow pr (l ++ [x]) = scrVec x) by (intros pr l x; unfold lastrow; destruct l; [reflexivity|]; cbn [app]; rewrite app_comm_cons, last_last; reflexivity).
    rewrite map_app. cbn [map]. rewrite !LR. apply Forall_app in F. destruct F as [_ F]. inversion F; subst. destruct (iter_rem d e) as [-> _]. rewrite iter_pop1 by lia. apply nth_firstn_lt. lia.
Qed.
Lemma arc_ok_lens : forall p K Q ws u prev es, arc_ok p K Q u prev ws es -> Forall (fun e => length (scrVec e) = K) es.
Proof. intros p K Q ws. induction ws as [|w ws IH]; intros u prev [|e es] A; cbn in A; try tauto; constructor; [apply A|]. destruct A as [_ A]. eauto. Qed.

Lemma shrink_full : forall p K d st, (d < K)%nat -> Full p K st -> Full p (K - d) (shrink d st).
Proof.
  intros p K d st Hd F. 
  assert (PI : forall b arc, nth_error G b = Some arc -> a_pred arc = 0%nat \/ into (length G) (a_pred arc)).
  { intros b arc E. destruct (pred_into G TP b arc E) as [H|(b' & arc' & H & R)]; [auto|]. right. exists b', arc'. split; [|auto].
    apply nth_error_Some. destruct R as [R _]. congruence. }
  assert (RD : forall s j, s = 0%nat \/ into (length G) s -> (j < K - d)%nat ->
     nth j (esiS (shrink d st) s) 0 = nth j (esiS st s) 0 /\ nth j (bestS (shrink d st) s) None = nth j (bestS st s) None /\ nth j (predS (shrink d st) s) None = nth j (predS st s) None).
  { intros s j Hs Hj. destruct (F_len _ _ _ _ _ _ _ _ _ _ _ _ F s Hs) as [(A & B & C) _]. unfold shrink. cbn [esiS bestS predS]. rewrite iter_pop1, !iter_removelast by lia.
    rewrite !nth_firstn_lt by lia. auto. }
  constructor.
  - intros s Hs. destruct (F_len _ _ _ _ _ _ _ _ _ _ _ _ F s Hs) as [(A & B & C) W]. split; [|exact W]. unfold lens, shrink. cbn [esiS bestS predS].
    rewrite iter_pop1, !iter_removelast by lia. rewrite !firstn_length. lia.
  - intros s j Hs Hj. destruct (RD s j Hs Hj) as (E1 & E2 & _). unfold bcol. rewrite E1, E2. apply (F_val _ _ _ _ _ _ _ _ _ _ _ _ F); auto. lia.
  - intros s j Hs Hj. destruct (RD s j (or_intror Hs) Hj) as (E1 & _ & E3). destruct (F_pred _ _ _ _ _ _ _ _ _ _ _ _ F s j Hs ltac:(lia)) as (b & arc & H1 & H2 & H3 & H4 & H5).
    exists b, arc. split; [auto|]. split; [auto|]. split; [auto|]. rewrite E1, E3. split; [auto|]. rewrite <- H5. cbn [shrink esiS esiA].
    eapply lastrow_shrink; [exact Hd| | |exact Hj].
    + apply (F_len _ _ _ _ _ _ _ _ _ _ _ _ F); eauto.
    + eapply arc_ok_lens. apply (F_arc _ _ _ _ _ _ _ _ _ _ _ _ F); eauto.
  - intros b arc E. cbn [shrink esiS esiA]. eapply arc_ok_prev; [|apply arc_ok_shrink; [exact Hd|apply (F_arc _ _ _ _ _ _ _ _ _ _ _ _ F); eauto]].
    intros i Hi. symmetry. apply (RD (a_pred arc) i); eauto.
Qed.

(** ** another prefix with the same columns *)
Lemma arc_ok_D : forall p q K Q, (forall ws j, (j < K)%nat -> D p ws j = D q ws j) -> forall ws u prev es, arc_ok p K Q u prev ws es -> arc_ok q K Q u prev ws es.
Proof.
  intros p q K Q ED ws. induction ws as [|w ws IH]; intros u prev [|e es] A; cbn in A |- *; try tauto.
  destruct A as [(L1 & L2 & H) R]. split; [|auto]. split; [auto|]. split; [auto|]. intros j Hj. destruct (H j Hj) as (A & B & (i & C1 & C2 & C3)).
  split; [|split; [auto|]].
  - eapply mset_ext; [| |exact A]; [tauto|]. intros; now apply ED.
  - exists i. split; [auto|]. split; [auto|]. intros x. rewrite <- !ED by lia. auto.
Qed.
Lemma Full_D : forall p q K st, (forall ws j, (j < K)%nat -> D p ws j = D q ws j) -> Full p K st -> Full q K st.
Proof.
  intros p q K st ED F. destruct F as [A B C E]. constructor; auto.
  - intros s j Hs Hj. destruct (B s j Hs Hj) as [M X]. split; [|exact X]. eapply mset_ext; [| |exact M]; [tauto|]. intros; now apply ED.
  - intros b arc Hb. eapply arc_ok_D; eauto.
Qed.

(** ** more words of the prefix *)
Lemma incrFirstRow_ok : forall diff c row, length row = S (length c) -> (forall j, (j <= length c)%nat -> nth j row 0 = row0 (pins0 ic (c ++ diff)) j) ->
  length (incrFirstRow ic diff row) = S (length (c ++ diff)) /\ forall j, (j <= length (c ++ diff))%nat -> nth j (incrFirstRow ic diff row) 0 = row0 (pins0 ic (c ++ diff)) j.
Proof.
  intros diff. induction diff as [|w diff IH]; intros c row L H; cbn [incrFirstRow].
  - rewrite app_nil_r in *. auto.
  - replace (c ++ w :: diff) with ((c ++ [w]) ++ diff) in * by (rewrite <- app_assoc; reflexivity).
    apply IH; [rewrite !app_length; simpl; lia|]. intros j Hj. rewrite app_length in Hj. cbn [length] in Hj.
    destruct (Nat.eq_dec j (S (length c))) as [->|NE]; [|rewrite app_nth1 by lia; apply H; lia].
    rewrite app_nth2 by lia. rewrite L, Nat.sub_diag. cbn [nth row0]. rewrite <- (H (length c)) by lia.
    destruct row as [|z row]; [discriminate|]. assert (LE : last (z :: row) 0 = nth (length c) (z :: row) 0).
    { assert (NE : z :: row <> []) by congruence. rewrite (app_removelast_last 0 NE) at 2. assert (RL : length (removelast (z :: row)) = length c) by (rewrite removelast_firstn1, firstn_length; simpl in *; lia).
      rewrite app_nth2 by lia. rewrite RL, Nat.sub_diag. reflexivity. }
    rewrite LE. f_equal. unfold pins0. rewrite <- app_assoc, app_nth2 by lia. rewrite Nat.sub_diag. reflexivity.
Qed.

Lemma procDiff_full : forall c diff st, diff <> [] -> Full (c ++ diff) (S (length c)) st ->
  exists st', procDiff hc ic sc dc ecmW wgW G s0 diff st = Some st' /\ Full (c ++ diff) (S (length (c ++ diff))) st'.
Proof.
  intros c diff st ND F.
  unfold procDiff. destruct diff as [|d0 ds] eqn:ED; [congruence|]. rewrite <- ED in *. clear ED. set (p := c ++ diff) in *.
  set (st1 := updateBestInit _ _ _ _).
  destruct (F_len _ _ _ _ _ _ _ _ _ _ _ _ F 0 (or_introl eq_refl)) as [(L0 & _) _].
  assert (R0 : forall j, (j <= length c)%nat -> nth j (esiS st 0) 0 = row0 (pins0 ic p) j).
  { intros j Hj. destruct (F_val _ _ _ _ _ _ _ _ _ _ _ _ F 0 j (or_introl eq_refl) ltac:(lia)) as [M _]. eapply mset_inj; [exact M|]. exact (mset_0 (fun ws => D p ws j)). }
  destruct (incrFirstRow_ok diff c (esiS st 0) L0 R0) as [RL RN]. fold p in RL, RN.
  assert (LP : length p = (length c + length diff)%nat) by (unfold p; apply app_length).
  assert (DN : (length diff <> 0)%nat) by (destruct diff; [congruence|simpl; lia]).
  assert (SO : forall s, s <> 0%nat -> esiS st1 s = esiS st s /\ bestS st1 s = bestS st s /\ predS st1 s = predS st s).
  { intros s Hs. unfold st1, updateBestInit, upd. cbn [esiS bestS predS]. destruct (Nat.eqb_spec s 0); [congruence|]. auto. }
  assert (S0 : esiS st1 0 = incrFirstRow ic diff (esiS st 0)) by reflexivity.
  assert (EAG : forall s i, s = 0%nat \/ into (length G) s -> (i < S (length c))%nat -> nth i (esiS st s) 0 = nth i (esiS st1 s) 0).
  { intros s i [->|Hs] Hi; [rewrite S0, RN, R0 by lia; reflexivity|]. destruct (SO s) as (-> & _); [eapply into_pos; eauto|reflexivity]. }
  assert (PI : forall b arc, nth_error G b = Some arc -> a_pred arc = 0%nat \/ into (length G) (a_pred arc)).
  { intros b arc E. destruct (pred_into G TP b arc E) as [H|(b' & arc' & H & R)]; [auto|]. right. exists b', arc'. split; [|auto].
    apply nth_error_Some. destruct R as [R _]. congruence. }
  assert (BL : forall s, into (length G) s -> lens (S (length c)) st1 s).
  { intros s H. destruct (SO s) as (E1 & E2 & E3); [eapply into_pos; eauto|]. unfold lens. rewrite E1, E2, E3. apply (F_len _ _ _ _ _ _ _ _ _ _ _ _ F). auto. }
  assert (BA : forall b arc, nth_error G b = Some arc -> S (length c) <> 0%nat -> arc_ok p (S (length c)) (P (a_pred arc)) [] (esiS st1 (a_pred arc)) (a_words arc) (esiA st1 b)).
  { intros b arc E _. eapply arc_ok_prev; [|apply (F_arc _ _ _ _ _ _ _ _ _ _ _ _ F b arc E)]. intros i Hi. apply EAG; eauto. }
  assert (FOK : forall Q ws prev es, (forall w, In w ws -> w <> []) -> length prev = S (length p) -> (forall j, (j < S (length p))%nat -> mcol p Q [] j (nth j prev 0)) ->
    (S (length c) <> 0%nat -> arc_ok p (S (length c)) Q [] prev ws es) ->
    exists es', arc_words (extendEsi hc ic sc dc diff) prev ws es = Some es' /\ (S (length c) <> 0%nat -> Forall2 (eagree (S (length c))) es es') /\ arc_ok p (S (length p)) Q [] prev ws es').
  { intros Q ws prev es W L M A. destruct (arc_extend_ok hc ic sc dc DC p c diff eq_refl ND Q ws [] prev es W L M (A ltac:(lia))) as (es' & E1 & E2 & E3). eauto. }
  assert (BV : forall s j, into (length G) s -> (j < S (length c))%nat -> mset (P s) (fun ws => D p ws j) (nth j (esiS st1 s) 0)).
  { intros s j Hs Hj. rewrite <- EAG by auto. apply (F_val _ _ _ _ _ _ _ _ _ _ _ _ F); auto. }
  assert (DSZ : match length diff with O => O | S _ => (S (length p) - length diff)%nat end = S (length c)) by (destruct (length diff) as [|m]; [congruence|lia]).
  destruct (proc_arcs_ok hc ic sc dc ecmW wgW G s0 Sc EW WN TP SC p (S (length c)) (S (length p)) st1 (extendEsi hc ic sc dc diff) (length diff) ltac:(lia) ltac:(lia) DSZ BL BA FOK BV G 0 st1 eq_refl ltac:(lia)) as (st' & E & IV).
  - constructor.
    + split; [|split; [|split]].
      * unfold lens, st1, updateBestInit, upd. cbn [esiS bestS predS Nat.eqb]. rewrite !map_length. auto.
      * exists s0. split; [reflexivity|exact SC0].
      * intros j Hj. rewrite S0, RN by lia. split; [exact (mset_0 (fun ws => D p ws j))|].
        unfold bcol, st1, updateBestInit, upd. cbn [esiS bestS Nat.eqb].
        assert (MN : forall (l : list Z) i, (i < length l)%nat -> nth i (map (fun z => Some (ecmW * - z + wgW * s0)) l) None = Some (ecmW * - nth i l 0 + wgW * s0)).
        { intros l. induction l as [|z l IHl]; intros [|i] Hi; simpl in Hi; try lia; [reflexivity|]. cbn. apply IHl. lia. }
        rewrite MN by lia. now rewrite RN, SC0 by lia.
      * auto.
    + intros s (b & arc & H & _). lia.
    + auto.
    + auto.
    + intros; lia.
    + auto.
  - exists st'. split; [exact E|]. eapply (Inv_full hc ic sc dc ecmW wgW G s0 Sc TP p (S (length c)) (S (length p)) st1 (length diff)); try eassumption; try lia. intros s j Hs Hj.
    destruct (F_val _ _ _ _ _ _ _ _ _ _ _ _ F s j (or_intror Hs) Hj) as [_ B]. destruct (F_pred _ _ _ _ _ _ _ _ _ _ _ _ F s j Hs Hj) as (b & arc & H1 & H2 & H3 & H4 & H5).
    destruct (SO s) as (E1 & E2 & E3); [eapply into_pos; eauto|].
    split; [unfold bcol; rewrite E1, E2; exact B|]. exists b, arc. rewrite E1, E3. split; [auto|]. split; [auto|]. split; [auto|]. split; [auto|]. rewrite <- H5.
    assert (EA : esiA st1 b = esiA st b) by reflexivity. rewrite EA. destruct (esiA st b); [symmetry; apply EAG; eauto|reflexivity].
Qed.

(** ** from one prefix to the next *)
Lemma validPrefix_ok : forall c prev new, (forall i a b, nth_error prev i = Some a -> nth_error new i = Some b -> a <> b) -> validPrefix (c ++ prev) (c ++ new) = c.
Proof.
  intros c prev new H. induction c as [|a c IH]; cbn [app validPrefix].
  - revert new H. induction prev as [|a prev IH]; intros [|b new] H; try reflexivity. cbn [validPrefix].
    destruct (str_eqb a b) eqn:E; [exfalso; apply str_eqb_true in E; exact (H 0%nat a b eq_refl eq_refl E)|]. apply IH. intros i x y Hx Hy. exact (H (S i) x y Hx Hy).
  - replace (str_eqb a a) with true by (symmetry; now apply str_eqb_true). now rewrite IH.
Qed.
Lemma procPrefix_full : forall st prev p, reusable prev p -> Full prev (S (length prev)) st ->
  exists st', procPrefix hc ic sc dc ecmW wgW G s0 st prev p = Some st' /\ Full p (S (length p)) st'.
Proof.
  intros st prev p (c & prev' & new' & -> & -> & NA & CASES) F. unfold procPrefix. rewrite validPrefix_ok by auto.
  unfold prefixDiff. rewrite skipn_app, skipn_all, Nat.sub_diag. cbn [app skipn].
  assert (DD : (length (c ++ prev') - length c = length prev')%nat) by (rewrite app_length; lia). rewrite DD.
  assert (F1 : Full (c ++ prev') (S (length c)) (shrink (length prev') st)).
  { replace (S (length c)) with (S (length (c ++ prev')) - length prev')%nat by (rewrite app_length; lia). apply shrink_full; auto. rewrite app_length. lia. }
  assert (F2 : Full (c ++ new') (S (length c)) (shrink (length prev') st)).
  { eapply Full_D; [|exact F1]. intros ws j Hj. destruct CASES as [->|[[N1 N2]|[-> ->]]].
    - simpl in Hj. assert (j = 0)%nat by lia. subst j. apply D_col0.
    - apply (D_local hc ic sc dc _ _ (length c)); [|rewrite app_length; destruct prev'; [congruence|simpl; lia]|rewrite app_length; destruct new'; [congruence|simpl; lia]|lia].
      rewrite !firstn_app, !firstn_all, !Nat.sub_diag. reflexivity.
    - reflexivity. }
  destruct new' as [|w new'].
  - rewrite app_nil_r in *. eexists. split; [reflexivity|exact F2].
  - apply procDiff_full; auto. congruence.
Qed.
Lemma procHistory_full : forall ps st prev, reusable_history prev ps -> Full prev (S (length prev)) st ->
  exists st', procHistory hc ic sc dc ecmW wgW G s0 st prev ps = Some st' /\ Full (last ps prev) (S (length (last ps prev))) st'.
Proof.
  intros ps. induction ps as [|p ps IH]; intros st prev H F; cbn [procHistory]; [eauto|]. destruct H as [H1 H2].
  destruct (procPrefix_full st prev p H1 F) as (st1 & E & F1). rewrite E. destruct (IH st1 p H2 F1) as (st2 & E2 & F2). exists st2. split; [exact E2|].
  destruct ps as [|q ps]; [exact F2|]. replace (last (p :: q :: ps) prev) with (last (q :: ps) p); [exact F2|]. clear. revert q. induction ps as [|r ps IH]; intro q; [reflexivity|]. exact (IH r).
Qed.
Theorem run_full : forall ps, reusable_history [] ps -> exists st, run hc ic sc dc ecmW wgW G s0 ps = Some st /\ Full (last ps []) (S (length (last ps []))) st.
Proof.
  intros ps H. unfold run. destruct (init_full []) as (st & E & F). rewrite E. now apply procHistory_full.
Qed.

(** ** following the predecessors *)
Theorem bestUncorr_ok : forall p K st, Full p K st -> forall B s pos fuel, (forall b arc, nth_error G b = Some arc -> a_succ arc = s -> (b < B)%nat) -> (B <= fuel)%nat ->
  s = 0%nat \/ into (length G) s -> (pos < K)%nat ->
  exists ws, bestUncorr G st fuel s pos = Some ws /\ P s ws /\ D p ws pos = nth pos (esiS st s) 0.
Proof.
  intros p K st F B. induction B as [B IH] using lt_wf_ind. intros s pos fuel HB HF Hs Hp.
  enough (X : exists ws, bestUncorr G st fuel s pos = Some ws /\ P s ws /\ D p ws pos <= nth pos (esiS st s) 0).
  { destruct X as (ws & E & HP & L). exists ws. split; [auto|]. split; [auto|]. destruct (F_val _ _ _ _ _ _ _ _ _ _ _ _ F s pos Hs Hp) as [[_ M] _]. specialize (M _ HP). cbv beta in M. lia. }
  destruct Hs as [->|Hs].
  - exists []. split; [destruct fuel; reflexivity|]. split; [now apply P0|]. destruct (F_val _ _ _ _ _ _ _ _ _ _ _ _ F 0%nat pos (or_introl eq_refl) Hp) as [[(ws & H & E) _] _].
    apply P0 in H; [|auto]. subst ws. cbv beta in E. lia.
  - destruct (F_pred _ _ _ _ _ _ _ _ _ _ _ _ F s pos Hs Hp) as (b & arc & H1 & H2 & H3 & H4 & H5).
    pose proof (HB b arc H2 H3) as BB. pose proof (into_pos _ _ Hs) as NZ.
    destruct (back_ok hc ic sc dc p K _ _ _ _ _ pos (F_arc _ _ _ _ _ _ _ _ _ _ _ _ F b arc H2) Hp) as (i & E1 & Hi & BD).
    assert (PI : a_pred arc = 0%nat \/ into (length G) (a_pred arc)).
    { destruct (pred_into G TP b arc H2) as [H|(b' & arc' & H & R)]; [auto|]. right. exists b', arc'. split; [lia|auto]. }
    destruct (IH b BB (a_pred arc) i (fuel - 1)%nat) as (ws & E2 & P2 & D2); auto; [intros b' arc' X Y; eapply pred_done; eauto|lia|lia|].
    exists (ws ++ a_words arc). split; [|split].
    + destruct s as [|s]; [congruence|]. destruct fuel as [|fuel]; [lia|]. cbn [bestUncorr]. replace (S fuel - 1)%nat with fuel in E2 by lia. rewrite H4, H2, E1, E2. reflexivity.
    + rewrite <- H3. eapply P_in; eauto.
    + specialize (BD ws). rewrite <- H5. lia.
Qed.
End R.
