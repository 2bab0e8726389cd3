From Coq Require Import NArith List Bool Lia Sorted.
From Verif Require Import CodecModel CodecSpec CodecProofs LexSpec LevelDbModel.
Import ListNotations.
Open Scope N_scope.

Lemma bytes_ltb_spec : forall a b, bytes_ltb a b = true <-> lexlt a b.
Proof.
  induction a as [|x a IH]; destruct b as [|y b]; simpl; split; intro H; try discriminate; try (now inversion H); [constructor| |].
  - destruct (x <? y) eqn:L; [apply N.ltb_lt in L; now apply lexlt_head|].
    destruct (x =? y) eqn:E; [|discriminate]. apply N.eqb_eq in E; subst. apply lexlt_tail. now apply IH.
  - inversion H; subst.
    + apply N.ltb_lt in H1. now rewrite H1.
    + rewrite N.ltb_irrefl, N.eqb_refl. now apply IH.
Qed.

Lemma bytes_ltb_false : forall a b, bytes_ltb a b = false <-> ~ lexlt a b.
Proof. intros. rewrite <- bytes_ltb_spec. destruct (bytes_ltb a b); split; intro H; try congruence; tauto. Qed.

(** Entries in strictly increasing key order: the representation invariant. *)
Definition db_ok {V} (d : db V) : Prop := StronglySorted lexlt (map fst d).

Lemma db_put_keys : forall V k (v : V) d x, In x (map fst (db_put k v d)) <-> x = k \/ In x (map fst d).
Proof.
  induction d as [|[k' v'] d IH]; intros x; simpl.
  - intuition.
  - destruct (bytes_ltb k k') eqn:E1; simpl; [intuition|].
    destruct (bytes_ltb k' k) eqn:E2; simpl; [rewrite IH; intuition|].
    apply bytes_ltb_false in E1, E2. destruct (lexlt_total k k') as [[L|L]|L]; try tauto. subst. intuition.
Qed.

Lemma db_put_ok : forall V k (v : V) d, db_ok d -> db_ok (db_put k v d).
Proof.
  unfold db_ok. induction d as [|[k' v'] d IH]; simpl; intro H.
  - repeat constructor.
  - inversion H as [|a l Hs Hf]; subst. destruct (bytes_ltb k k') eqn:E1; simpl.
    + apply bytes_ltb_spec in E1. constructor; [constructor; auto|]. constructor; auto.
      eapply Forall_impl; [|exact Hf]. intros; eapply lexlt_trans; eauto.
    + destruct (bytes_ltb k' k) eqn:E2; simpl.
      * apply bytes_ltb_spec in E2. constructor; auto. apply Forall_forall. intros x Hx.
        apply db_put_keys in Hx as [->|Hx]; auto. rewrite Forall_forall in Hf. auto.
      * apply bytes_ltb_false in E1, E2. destruct (lexlt_total k k') as [[L|L]|L]; try tauto. subst. constructor; auto.
Qed.

Lemma db_get_put : forall V k (v : V) d k', db_ok d ->
  db_get k' (db_put k v d) = if list_eq_dec N.eq_dec k' k then Some v else db_get k' d.
Proof.
  assert (IR : forall k, bytes_ltb k k = false) by (intro; apply bytes_ltb_false, lexlt_irrefl).
  unfold db_ok. induction d as [|[k1 v1] d IH]; intros k' H; simpl.
  - destruct (list_eq_dec N.eq_dec k' k) as [->|NE].
    + now rewrite IR.
    + destruct (bytes_ltb k' k) eqn:A; auto. destruct (bytes_ltb k k') eqn:B; auto.
      apply bytes_ltb_false in A, B. destruct (lexlt_total k' k) as [[L|L]|L]; tauto.
  - inversion H as [|a l Hs Hf]; subst.
    destruct (bytes_ltb k k1) eqn:E1; [|destruct (bytes_ltb k1 k) eqn:E2]; simpl.
    + destruct (list_eq_dec N.eq_dec k' k) as [->|NE].
      * now rewrite IR.
      * destruct (bytes_ltb k' k) eqn:A; destruct (bytes_ltb k k') eqn:B; auto.
        -- apply bytes_ltb_spec in A, B. exfalso; apply (lexlt_irrefl k); eapply lexlt_trans; eauto.
        -- apply bytes_ltb_spec in A, E1. assert (C : bytes_ltb k' k1 = true) by (apply bytes_ltb_spec; eapply lexlt_trans; eauto).
           now rewrite C.
        -- apply bytes_ltb_false in A, B. destruct (lexlt_total k' k) as [[L|L]|L]; tauto.
    + destruct (list_eq_dec N.eq_dec k' k) as [->|NE].
      * rewrite E1, E2. rewrite IH by auto. destruct (list_eq_dec N.eq_dec k k); tauto.
      * destruct (bytes_ltb k' k1); auto. destruct (bytes_ltb k1 k'); auto. rewrite IH by auto.
        destruct (list_eq_dec N.eq_dec k' k); tauto.
    + apply bytes_ltb_false in E1, E2. destruct (lexlt_total k k1) as [[L|L]|L]; try tauto. subst.
      destruct (list_eq_dec N.eq_dec k' k1) as [->|NE]; [now rewrite IR|].
      destruct (bytes_ltb k' k1) eqn:A; auto. destruct (bytes_ltb k1 k') eqn:B; auto.
      apply bytes_ltb_false in A, B. destruct (lexlt_total k' k1) as [[L|L]|L]; tauto.
Qed.

Lemma db_get_In : forall V k (v : V) d, db_ok d -> (db_get k d = Some v <-> In (k, v) d).
Proof.
  unfold db_ok. induction d as [|[k1 v1] d IH]; simpl; intro H; [intuition; discriminate|].
  inversion H as [|a l Hs Hf]; subst. rewrite Forall_forall in Hf.
  destruct (bytes_ltb k k1) eqn:E1; [|destruct (bytes_ltb k1 k) eqn:E2].
  - apply bytes_ltb_spec in E1. split; [discriminate|]. intros [E|HI].
    + inversion E; subst. now apply lexlt_irrefl in E1.
    + apply (in_map fst) in HI. apply Hf in HI. simpl in HI. exfalso; apply (lexlt_irrefl k); eapply lexlt_trans; eauto.
  - apply bytes_ltb_spec in E2. rewrite IH by auto. split; [auto|]. intros [E|HI]; auto. inversion E; subst. now apply lexlt_irrefl in E2.
  - apply bytes_ltb_false in E1, E2. destruct (lexlt_total k k1) as [[L|L]|L]; try tauto. subst. split; intro E.
    + inversion E; auto.
    + destruct E as [E|HI]; [now inversion E|]. apply (in_map fst) in HI. apply Hf in HI. simpl in HI. now apply lexlt_irrefl in HI.
Qed.

(** A range scan visits exactly the entries with start <= key < stop. *)
Lemma db_range_In : forall V start stop (d : db V) k v, db_ok d ->
  (In (k, v) (db_range start stop d) <-> In (k, v) d /\ ~ lexlt k start /\ lexlt k stop).
Proof.
  unfold db_range, db_ok. intros V start stop d k v.
  assert (U : forall d : db V, StronglySorted lexlt (map fst d) -> (In (k, v) (db_until stop d) <-> In (k, v) d /\ lexlt k stop)).
  { induction d0 as [|[k1 v1] d0 IH]; simpl; intro H; [tauto|].
    inversion H as [|a l Hs Hf]; subst. rewrite Forall_forall in Hf.
    destruct (bytes_ltb k1 stop) eqn:E; simpl.
    - apply bytes_ltb_spec in E. rewrite IH by auto. split.
      + intros [A|[A B]]; [inversion A; subst; auto|auto].
      + intros [[A|A] B]; auto.
    - apply bytes_ltb_false in E. split; [tauto|]. intros [[A|A] B].
      + inversion A; subst; tauto.
      + apply (in_map fst) in A. apply Hf in A. simpl in A. apply E. eapply lexlt_trans; eauto. }
  induction d as [|[k1 v1] d IH]; intro H.
  - simpl; tauto.
  - cbn [db_seek]. destruct (bytes_ltb k1 start) eqn:E.
    + simpl in H. inversion H as [|a l Hs Hf]; subst. apply bytes_ltb_spec in E. rewrite IH by auto. simpl. split.
      * tauto.
      * intros [[A|A] B]; [inversion A; subst; tauto|tauto].
    + rewrite U by auto. apply bytes_ltb_false in E. simpl in H. inversion H as [|a l Hs Hf]; subst. rewrite Forall_forall in Hf.
      simpl. split; [|tauto]. intros [[A|A] B].
      * inversion A; subst; tauto.
      * split; [auto|split; auto]. apply (in_map fst) in A. apply Hf in A. simpl in A. intro C. apply E. eapply lexlt_trans; eauto.
Qed.

(** ** Lexical table *)
(** invariant: keys are encodings of 1- or 2-word vectors of 32-bit words *)
Definition lex_inv (d : lexdb) : Prop := db_ok d /\
  forall k v, In (k, v) d -> exists w, k = lex_vectorToKey w /\ words_below (2^32) w /\ (length w = 1 \/ length w = 2)%nat.

Lemma db_put_In_inv : forall V k (v : V) d k' v', In (k', v') (db_put k v d) -> (k' = k /\ v' = v) \/ In (k', v') d.
Proof.
  induction d as [|[k1 v1] d IH]; simpl; intros k' v' H.
  - destruct H as [H|[]]; inversion H; auto.
  - destruct (bytes_ltb k k1); simpl in H.
    + destruct H as [H|H]; [inversion H; auto|auto].
    + destruct (bytes_ltb k1 k); simpl in H.
      * destruct H as [H|H]; [auto|]. apply IH in H. tauto.
      * destruct H as [H|H]; [inversion H; auto|auto].
Qed.

Lemma storeData_inv : forall w f d, lex_inv d -> words_below (2^32) w -> (length w = 1 \/ length w = 2)%nat ->
  lex_inv (lexdb_storeData w f d).
Proof.
  intros w f d [H1 H2] Hw Hl. split; [now apply db_put_ok|].
  intros k v H. apply db_put_In_inv in H as [[-> ->]|H]; eauto.
Qed.

Lemma lexdb_apply_inv : forall d o, lex_inv d -> op_ok o -> lex_inv (lexdb_apply d o).
Proof.
  intros d [s t f|s f] H Hok; simpl in *; apply storeData_inv; auto; simpl; auto; repeat constructor; tauto.
Qed.

Lemma run_inv : forall ops, Forall op_ok ops -> lex_inv (lexdb_run ops).
Proof.
  unfold lexdb_run. intros ops H. assert (G : forall ops d, Forall op_ok ops -> lex_inv d -> lex_inv (fold_left lexdb_apply ops d)).
  { induction ops0; simpl; auto; intros. inversion H0; subst. apply IHops0; auto using lexdb_apply_inv. }
  apply G; auto. split; [constructor|]. simpl; tauto.
Qed.

Lemma retrieve_store : forall w w' f d, db_ok d -> words_below (2^32) w -> words_below (2^32) w' -> f < 2^32 ->
  lexdb_retrieveData w' (lexdb_storeData w f d) = if list_eq_dec N.eq_dec w' w then Some f else lexdb_retrieveData w' d.
Proof.
  intros w w' f d Hd Hw Hw' Hf. unfold lexdb_retrieveData, lexdb_storeData. rewrite db_get_put by auto.
  destruct (list_eq_dec N.eq_dec (lex_vectorToKey w') (lex_vectorToKey w)) as [E|E].
  - apply lex_inj in E; auto. subst. destruct (list_eq_dec N.eq_dec w w); [|tauto]. now apply float_roundtrip.
  - destruct (list_eq_dec N.eq_dec w' w); [subst; tauto|reflexivity].
Qed.

Lemma wb1 : forall a, a < 2^32 -> words_below (2^32) [a]. Proof. repeat constructor; auto. Qed.
Lemma wb2 : forall a b, a < 2^32 -> b < 2^32 -> words_below (2^32) [a;b]. Proof. repeat constructor; auto. Qed.

Lemma run_num : forall ops s t, Forall op_ok ops -> s < 2^32 -> t < 2^32 ->
  lexdb_getLexNumer s t (lexdb_run ops) = last_num s t ops.
Proof.
  unfold lexdb_run. intros ops s t H Hs Ht.
  assert (G : forall ops d, Forall op_ok ops -> lex_inv d ->
     lexdb_getLexNumer s t (fold_left lexdb_apply ops d) = match last_num s t ops with Some f => Some f | None => lexdb_getLexNumer s t d end).
  { induction ops0 as [|o r IH]; intros d Hok Hd; [reflexivity|]. simpl. inversion Hok; subst.
    rewrite IH; auto using lexdb_apply_inv. destruct (last_num s t r); auto.
    unfold lexdb_getLexNumer. destruct Hd as [Hd _]. destruct o as [s' t' f|s' f]; simpl lexdb_apply; simpl in H2.
    - unfold lexdb_setLexNumer. rewrite retrieve_store; try apply wb2; try tauto.
      destruct (list_eq_dec N.eq_dec [t;s] [t';s']) as [E|E].
      + inversion E; subst. now rewrite !N.eqb_refl.
      + destruct (s =? s') eqn:A; destruct (t =? t') eqn:B; simpl; auto.
        apply N.eqb_eq in A, B. subst; tauto.
    - unfold lexdb_setLexDenom. rewrite retrieve_store; try apply wb1; try apply wb2; try tauto.
      destruct (list_eq_dec N.eq_dec [t;s] [s']) as [E|E]; [discriminate|]. reflexivity. }
  rewrite G; auto. - destruct (last_num s t ops); reflexivity. - split; [constructor|]. simpl; tauto.
Qed.

Lemma run_den : forall ops s, Forall op_ok ops -> s < 2^32 ->
  lexdb_getLexDenom s (lexdb_run ops) = last_den s ops.
Proof.
  unfold lexdb_run. intros ops s H Hs.
  assert (G : forall ops d, Forall op_ok ops -> lex_inv d ->
     lexdb_getLexDenom s (fold_left lexdb_apply ops d) = match last_den s ops with Some f => Some f | None => lexdb_getLexDenom s d end).
  { induction ops0 as [|o r IH]; intros d Hok Hd; [reflexivity|]. simpl. inversion Hok; subst.
    rewrite IH; auto using lexdb_apply_inv. destruct (last_den s r); auto.
    unfold lexdb_getLexDenom. destruct Hd as [Hd _]. destruct o as [s' t' f|s' f]; simpl lexdb_apply; simpl in H2.
    - unfold lexdb_setLexNumer. rewrite retrieve_store; try apply wb2; try apply wb1; try tauto.
      destruct (list_eq_dec N.eq_dec [s] [t';s']) as [E|E]; [discriminate|]. reflexivity.
    - unfold lexdb_setLexDenom. rewrite retrieve_store; try apply wb1; try tauto.
      destruct (list_eq_dec N.eq_dec [s] [s']) as [E|E].
      + inversion E; subst. now rewrite !N.eqb_refl.
      + destruct (s =? s') eqn:A; auto. apply N.eqb_eq in A. subst; tauto. }
  rewrite G; auto. - destruct (last_den s ops); reflexivity. - split; [constructor|]. simpl; tauto.
Qed.

Lemma lexlt_1_2 : forall t w, ~ lexlt w [t] <-> match w with [] => False | a :: _ => t <= a end.
Proof.
  intros t w. destruct w as [|a w]; split; intro H.
  - apply H. constructor.
  - tauto.
  - destruct (N.le_gt_cases t a); auto. exfalso; apply H. now apply lexlt_head.
  - intro L. inversion L; subst; [lia|]. inversion H1.
Qed.
Lemma lexlt_w_1 : forall t w, lexlt w [t] <-> match w with [] => True | a :: _ => a < t end.
Proof.
  intros t w. destruct w as [|a w]; split; intro H; auto.
  - constructor.
  - inversion H; subst; auto. inversion H1.
  - now apply lexlt_head.
Qed.

Lemma scan_spec : forall d t s, lex_inv d -> t < 2^32 - 1 -> s < 2^32 ->
  (In s (lexdb_scan t d) <-> exists v, In (lex_vectorToKey [t; s], v) d).
Proof.
  intros d t s [Hd Hk] Ht Hs. unfold lexdb_scan.
  assert (T1 : (t + 1) mod two32 = t + 1) by (apply N.mod_small; unfold two32; change (2^32 - 1) with 4294967295 in Ht; lia).
  assert (Hts : t < 2^32) by lia. assert (Ht1 : t + 1 < 2^32) by lia.
  rewrite T1, in_flat_map. split.
  - intros [[k v] [HI HIn]]. simpl in HIn. apply db_range_In in HI; auto. destruct HI as [HI [Ha Hb]].
    destruct (Hk _ _ HI) as [w [-> [Hw Hl]]]. rewrite lex_roundtrip in HIn by auto.
    rewrite lex_order in Ha, Hb by (auto using wb1).
    rewrite lexlt_1_2 in Ha. rewrite lexlt_w_1 in Hb. destruct w as [|a w]; [tauto|].
    assert (a = t) by lia. subst a. destruct w as [|b [|]]; simpl in *; try lia.
    destruct HIn as [->|[]]. eauto.
  - intros [v HI]. exists (lex_vectorToKey [t;s], v). split.
    + apply db_range_In; auto. split; auto. rewrite !lex_order by (auto using wb1, wb2).
      rewrite lexlt_1_2, lexlt_w_1. lia.
    + cbn [fst]. rewrite lex_roundtrip by (auto using wb2). simpl. auto.
Qed.

Lemma get_In : forall (d : lexdb) w, db_ok d -> (exists v, In (lex_vectorToKey w, v) d) <-> db_get (lex_vectorToKey w) d <> None.
Proof.
  intros d w Hd. split.
  - intros [v H]. apply db_get_In in H; auto. congruence.
  - intro H. destruct (db_get (lex_vectorToKey w) d) eqn:E; [|tauto]. exists l. now apply db_get_In.
Qed.

(** Values stored are always decodable, so "key present" = "getter succeeds". *)
Definition vals_ok (d : lexdb) : Prop := forall k v, In (k, v) d -> exists f, f < 2^32 /\ v = floatToString f.
Lemma run_vals : forall ops, Forall op_ok ops -> vals_ok (lexdb_run ops).
Proof.
  unfold lexdb_run. intros ops H. assert (G : forall ops d, Forall op_ok ops -> vals_ok d -> vals_ok (fold_left lexdb_apply ops d)).
  { induction ops0; simpl; auto; intros. inversion H0; subst. apply IHops0; auto.
    intros k v HI. destruct a as [s t f|s f]; simpl in *; apply db_put_In_inv in HI as [[-> ->]|HI]; eauto.
    - exists f; tauto. - exists f; tauto. }
  apply G; auto. intros k v [].
Qed.

Lemma run_trans : forall ops s t, Forall op_ok ops -> s < 2^32 -> t < 2^32 - 1 ->
  (In s (snd (lexdb_getTransForTarget t (lexdb_run ops))) <-> last_num s t ops <> None).
Proof.
  intros ops s t H Hs Ht. unfold lexdb_getTransForTarget; simpl.
  pose proof (run_inv ops H) as HI. rewrite scan_spec by auto. rewrite get_In by apply HI.
  rewrite <- run_num by (auto; lia). unfold lexdb_getLexNumer, lexdb_retrieveData.
  destruct (db_get (lex_vectorToKey [t; s]) (lexdb_run ops)) eqn:E; [|tauto].
  apply db_get_In in E; [|apply HI]. destruct (run_vals ops H _ _ E) as [f [Hf ->]].
  rewrite float_roundtrip by auto. split; congruence.
Qed.

Lemma trans_found : forall ops t, fst (lexdb_getTransForTarget t (lexdb_run ops)) = true <-> exists s, In s (snd (lexdb_getTransForTarget t (lexdb_run ops))).
Proof.
  intros. unfold lexdb_getTransForTarget. destruct (lexdb_scan t (lexdb_run ops)); simpl; split; intro H; try discriminate; eauto.
  destruct H as [s []].
Qed.

Lemma lexlt_neg_trans : forall k a b, lexlt k b -> ~ lexlt k a -> lexlt b a -> False.
Proof. intros. apply H0. eapply lexlt_trans; eauto. Qed.

(** t = 2^32-1: the end key wraps to the key of word 0 and the scan is empty. *)
Lemma trans_wrap : forall ops, Forall op_ok ops -> lexdb_getTransForTarget (2^32 - 1) (lexdb_run ops) = (false, []).
Proof.
  intros ops H. unfold lexdb_getTransForTarget, lexdb_scan.
  assert (E : db_range (lex_vectorToKey [2^32 - 1]) (lex_vectorToKey [((2^32 - 1) + 1) mod two32]) (lexdb_run ops) = []).
  { destruct (db_range _ _ _) as [|[k v] l] eqn:E; auto. exfalso.
    assert (HI : In (k, v) (db_range (lex_vectorToKey [2^32 - 1]) (lex_vectorToKey [((2^32 - 1) + 1) mod two32]) (lexdb_run ops))) by (rewrite E; left; auto).
    apply db_range_In in HI; [|apply run_inv; auto]. destruct HI as [_ [A B]].
    change (((2^32 - 1) + 1) mod two32) with 0 in B.
    eapply lexlt_neg_trans; eauto. apply bytes_ltb_spec. reflexivity. }
  rewrite E. reflexivity.
Qed.
