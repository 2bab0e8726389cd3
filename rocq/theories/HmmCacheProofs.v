From Coq Require Import Reals NArith Arith List Bool Lra Lia.
From Verif Require Import RSums MathModel LogNum AligSpec AligModel HmmSpec HmmModel HmmVitProofs.
Import ListNotations.
Open Scope R_scope.
Lemma setn_len : forall {A} (l : list A) k v, length (setn k v l) = length l.
Proof. induction l; intros [|k] v; cbn; auto. Qed.
Lemma setn_same : forall {A} (l : list A) k v, (k < length l)%nat -> nth_error (setn k v l) k = Some v.
Proof. induction l; intros [|k] v H; cbn in *; try lia; auto. apply IHl. lia. Qed.
Lemma setn_other : forall {A} (l : list A) k k' v, k <> k' -> nth_error (setn k v l) k' = nth_error l k'.
Proof. induction l; intros [|k] [|k'] v H; cbn; auto; try lia. Qed.
Lemma grow_len : forall {A} (d : A) k l, (k < length (grow d k l))%nat.
Proof. intros. unfold grow. rewrite app_length, repeat_length. lia. Qed.
Lemma grow_len_ge : forall {A} (d : A) k l, (length l <= length (grow d k l))%nat.
Proof. intros. unfold grow. rewrite app_length. lia. Qed.
Lemma grow_inv : forall {A} (d : A) k l j x, nth_error (grow d k l) j = Some x -> nth_error l j = Some x \/ x = d.
Proof.
  intros A d k l j x H. unfold grow in H. destruct (Nat.lt_ge_cases j (length l)).
  - rewrite nth_error_app1 in H by auto. auto.
  - rewrite nth_error_app2 in H by auto. right. apply nth_error_In, repeat_spec in H. exact H.
Qed.
Lemma nth_nth_error : forall {A} (l : list A) k d, (k < length l)%nat -> nth_error l k = Some (nth k l d).
Proof. intros. now apply nth_error_nth'. Qed.
Lemma bc_same : forall c p s i v, c_get (set_boundary_check c p s i v) p s i = Some v.
Proof.
  intros. unfold set_boundary_check, c_get. cbv zeta. rewrite setn_same by apply grow_len. rewrite setn_same by apply grow_len. rewrite setn_same by apply grow_len. reflexivity.
Qed.
Lemma bc_other : forall c p s i v p' s' i' u, c_get (set_boundary_check c p s i v) p' s' i' = Some u ->
  (p' = p /\ s' = s /\ i' = i /\ u = v) \/ c_get c p' s' i' = Some u \/ u = INVALID.
Proof.
  intros c p s i v p' s' i' u H. unfold set_boundary_check, c_get in H. cbv zeta in H.
  set (c1 := grow [] p c) in *.
  assert (C1 : forall a, nth_error c1 p' = Some a -> nth_error c p' = Some a \/ a = []) by (intros a; apply grow_inv).
  assert (Hp : nth_error c1 p = Some (nth p c1 [])) by (apply nth_nth_error, grow_len).
  destruct (Nat.eq_dec p p') as [<-|Np].
  - rewrite setn_same in H by apply grow_len.
    set (a := nth p c1 []) in *. set (a1 := grow [] s a) in *.
    assert (Hs : nth_error a1 s = Some (nth s a1 [])) by (apply nth_nth_error, grow_len).
    assert (Ga : forall s' b, nth_error a1 s' = Some b -> b = [] \/ exists a', nth_error c p = Some a' /\ nth_error a' s' = Some b).
    { intros s0 b E. apply grow_inv in E as [E|E]; [|auto]. destruct (C1 _ Hp) as [Q|Q]; [right; eauto|]. rewrite Q in E. destruct s0; discriminate. }
    destruct (Nat.eq_dec s s') as [<-|Ns].
    + rewrite setn_same in H by apply grow_len.
      destruct (Nat.eq_dec i i') as [<-|Ni]; [rewrite setn_same in H by apply grow_len; inversion H; auto|].
      rewrite setn_other in H by auto. apply grow_inv in H as [H|H]; [|auto].
      destruct (Ga _ _ Hs) as [Q|(a' & Q1 & Q2)]; [rewrite Q in H; destruct i'; discriminate|].
      right; left. unfold c_get. rewrite Q1, Q2. exact H.
    + rewrite setn_other in H by auto. destruct (nth_error a1 s') as [b|] eqn:E; [|discriminate].
      destruct (Ga _ _ E) as [->|(a' & Q1 & Q2)]; [destruct i'; discriminate|]. right; left. unfold c_get. rewrite Q1, Q2. exact H.
  - rewrite setn_other in H by auto. destruct (nth_error c1 p') as [a|] eqn:E; [|discriminate].
    destruct (C1 _ eq_refl) as [Q|Q]; [|subst a; destruct s'; discriminate]. right; left. unfold c_get. rewrite Q. exact H.
Qed.
Section C.
Variable M : hmm.
Definition cache_ok (c : cache) : Prop := forall p s i v, c_get c p s i = Some v -> v < INVALID -> v = logaProb M p s i.
Lemma cache_ok_nil : cache_ok [].
Proof. intros p s i v H. unfold c_get in H. destruct p; discriminate. Qed.
Lemma look_ok : forall c p s i, cache_ok c -> exists c', look M c p s i = Some (logaProb M p s i, c') /\ cache_ok c'.
Proof.
  intros c p s i H. unfold look. destruct (isDefined c p s i) eqn:D.
  - unfold isDefined in D. destruct (c_get c p s i) as [v|] eqn:E; [|discriminate]. destruct (Rle_dec INVALID v); [discriminate|].
    exists c. rewrite (H _ _ _ _ E) by lra. auto.
  - rewrite bc_same. eexists. split; [reflexivity|]. intros p' s' i' v G L. apply bc_other in G as [(-> & -> & -> & ->)|[G|G]]; [reflexivity|eauto|subst; lra].
Qed.
Variable slen : nat.
Let la p i := logaProb M p slen i.
Lemma vit_inner_ok : forall prev it i x best pred c, cache_ok c -> exists c',
  vit_inner M slen prev it i x best pred c = Some (pv_inner la prev it i x best pred, c') /\ cache_ok c'.
Proof.
  induction prev as [|v r IH]; intros it i x best pred c H; cbn [vit_inner pv_inner]; [eauto|].
  destruct (look_ok c it slen i H) as (c1 & E & K). rewrite E. cbv zeta. fold (la it i). destruct (Rlt_dec best (fst v + la it i + x)); apply IH; auto.
Qed.
Lemma vit_col_ok : forall prev (lx : nat -> R) is_ c, cache_ok c -> exists c',
  vit_col M slen prev lx is_ c = Some (map (fun i => pv_cell la prev (lx i) i) is_, c') /\ cache_ok c'.
Proof.
  intros prev lx. induction is_ as [|i r IH]; intros c H; cbn [vit_col map]; [eauto|].
  assert (Q : exists c1, match prev with None => match look M c 0 slen i with Some (a, c) => Some (a + lx i, 0%nat, c) | None => None end | Some p => vit_inner M slen p 1 i (lx i) SMALL_LG_NUM 0 c end
              = Some (pv_cell la prev (lx i) i, c1) /\ cache_ok c1).
  { destruct prev as [p|]; [apply vit_inner_ok; auto|]. destruct (look_ok c 0 slen i H) as (c1 & E & K). rewrite E. eexists. split; [reflexivity|exact K]. }
  destruct Q as (c1 & -> & K). destruct (pv_cell la prev (lx i) i) as [v p]. destruct (IH c1 K) as (c2 & -> & K2). eauto.
Qed.
Lemma vit_cols_ok : forall ns t acc c, cache_ok c -> exists c',
  vit_cols M slen ns acc t c = Some (pv_cols la (fun i w => logpts M (nth (i - 1) ns NULL_WORD) w) (length ns) acc t, c') /\ cache_ok c'.
Proof.
  intros ns. induction t as [|w t IH]; intros acc c H; cbn [vit_cols pv_cols]; [eauto|].
  destruct (vit_col_ok (match acc with [] => None | p :: _ => Some p end) (fun i => logpts M (nth (i - 1) ns NULL_WORD) w) (seq 1 (length ns)) c H) as (c1 & E & K).
  rewrite E. apply IH. exact K.
Qed.
End C.
(** what a call with a cache returns does not depend on the cache *)
Lemma best_cached_ok : forall M slm s t c c2, cache_ok M c -> cache_ok M c2 -> 
  match obtainBestAlignmentCached M slm s t c, obtainBestAlignmentCached M slm s t c2 with
  | Some (r, A, c'), Some (r2, A2, c2') => r = r2 /\ A = A2 /\ cache_ok M c' /\ cache_ok M c2'
  | None, None => True
  | _, _ => False
  end.
Proof.
  intros M slm s t c c2 H H2. unfold obtainBestAlignmentCached. destruct (sentenceLengthIsOk s && sentenceLengthIsOk t); [|auto].
  destruct (vit_cols_ok M (getSrcLen (extendWithNullWord s)) (extendWithNullWord s) t [] c H) as (d & -> & K).
  destruct (vit_cols_ok M (getSrcLen (extendWithNullWord s)) (extendWithNullWord s) t [] c2 H2) as (d2 & -> & K2).
  destruct (bestAlig _ _) as [[lp al]|]; [|exact I]. destruct (putAligVec _ _); [auto|exact I].
Qed.
(** ---- the member cache: rooms and queries *)
Inductive cop := Room (n : nat) | Ask (p s i : nat).
Fixpoint crun (M : hmm) (ops : list cop) (c : cache) : option (list R) :=
  match ops with
  | [] => Some []
  | Room n :: r => crun M r (makeRoomGivenNSrcSentLen n c)
  | Ask p s i :: r => match cached_logaProb M c p s i with Some (v, c') => option_map (cons v) (crun M r c') | None => None end
  end.
Definition cube (c : cache) : Prop := forall a, In a c -> (length c <= length a)%nat /\ forall b, In b a -> (length c <= length b)%nat.
Lemma cube_get : forall c p s i, cube c -> (p < length c)%nat -> (s < length c)%nat -> (i < length c)%nat -> exists v, c_get c p s i = Some v.
Proof.
  intros c p s i H P S I. unfold c_get. rewrite (nth_nth_error c p []) by auto.
  destruct (H (nth p c [])) as [L B]; [apply nth_In; auto|]. rewrite (nth_nth_error _ s []) by lia.
  specialize (B (nth s (nth p c []) [])). rewrite (nth_nth_error _ i 0); [eauto|]. assert (length c <= length (nth s (nth p c []) []))%nat by (apply B, nth_In; lia). lia.
Qed.
Lemma In_setn : forall {A} (l : list A) k v x, In x (setn k v l) -> x = v \/ In x l.
Proof. induction l as [|y l IH]; intros [|k] v x H; cbn in *; [tauto|tauto|intuition (subst; auto)|]. destruct H as [H|H]; auto. apply IH in H. destruct H; auto. Qed.
Lemma c_set_get : forall c p s i v, forall c', c_set c p s i v = Some c' -> forall p' s' i', c_get c' p' s' i' = if (Nat.eqb p p' && Nat.eqb s s' && Nat.eqb i i')%bool then Some v else c_get c p' s' i'.
Proof.
  intros c p s i v c' H p' s' i'. unfold c_set in H. destruct (c_get c p s i) as [u|] eqn:E; [|discriminate]. inversion H; subst c'. clear H.
  unfold c_get in *. destruct (nth_error c p) as [a|] eqn:Ea; [|discriminate]. destruct (nth_error a s) as [b|] eqn:Eb; [|discriminate].
  assert (Lp : (p < length c)%nat) by (apply nth_error_Some; congruence). assert (Ls : (s < length a)%nat) by (apply nth_error_Some; congruence).
  assert (Li : (i < length b)%nat) by (apply nth_error_Some; congruence).
  rewrite (nth_error_nth c p [] Ea). rewrite (nth_error_nth a s [] Eb).
  destruct (Nat.eqb_spec p p') as [<-|Np]; cbn [andb]; [|rewrite setn_other by auto; reflexivity].
  rewrite setn_same by auto. rewrite Ea. destruct (Nat.eqb_spec s s') as [<-|Ns]; cbn [andb]; [|rewrite setn_other by auto; reflexivity].
  rewrite setn_same by auto. rewrite Eb. destruct (Nat.eqb_spec i i') as [<-|Ni]; [apply setn_same; auto|apply setn_other; auto].
Qed.
Lemma c_set_cube : forall c p s i v c', cube c -> c_set c p s i v = Some c' -> cube c' /\ length c' = length c.
Proof.
  intros c p s i v c' H E. unfold c_set in E. destruct (c_get c p s i) as [u|] eqn:G; [|discriminate]. inversion E; subst; clear E.
  unfold c_get in G. destruct (nth_error c p) as [a|] eqn:Ea; [|discriminate]. destruct (nth_error a s) as [b|] eqn:Eb; [|discriminate].
  rewrite (nth_error_nth c p [] Ea). rewrite (nth_error_nth a s [] Eb). rewrite setn_len. split; [|reflexivity].
  pose proof (nth_error_In _ _ Ea) as Ia. destruct (H a Ia) as [Ha Hb].
  intros x X. rewrite setn_len. apply In_setn in X as [->|X]; [|apply H; auto]. rewrite setn_len. split; [auto|].
  intros y Y. apply In_setn in Y as [->|Y]; [rewrite setn_len; apply Hb; eapply nth_error_In; eauto|auto].
Qed.
Lemma room_cube : forall n c, cube c -> cube (makeRoomGivenNSrcSentLen n c) /\ (n < length (makeRoomGivenNSrcSentLen n c))%nat /\ (length c <= length (makeRoomGivenNSrcSentLen n c))%nat.
Proof.
  intros n c H. unfold makeRoomGivenNSrcSentLen. destruct (Nat.leb_spec (length c) n) as [L|L]; [|auto].
  assert (LL : length (map (fun a => map (grow INVALID n) (grow [] n a)) (grow [] n c)) = S n).
  { rewrite map_length. unfold grow. rewrite app_length, repeat_length. lia. }
  rewrite LL. split; [|lia]. intros a Ia. rewrite LL. apply in_map_iff in Ia as (a0 & <- & Ia). rewrite map_length. split; [apply grow_len|].
  intros b Ib. apply in_map_iff in Ib as (b0 & <- & _). apply grow_len.
Qed.
Lemma room_ok : forall M n c, cache_ok M c -> cache_ok M (makeRoomGivenNSrcSentLen n c).
Proof.
  intros M n c H. unfold makeRoomGivenNSrcSentLen. destruct (Nat.leb_spec (length c) n) as [L|L]; [|auto].
  intros p s i v G V. unfold c_get in G. rewrite nth_error_map in G. destruct (nth_error (grow [] n c) p) as [a|] eqn:Ea; [|discriminate].
  cbn [option_map] in G. rewrite nth_error_map in G. destruct (nth_error (grow [] n a) s) as [b|] eqn:Eb; [|discriminate]. cbn [option_map] in G.
  apply grow_inv in G as [G|G]; [|subst; lra]. apply grow_inv in Eb as [Eb|Eb]; [|subst; destruct i; discriminate].
  apply grow_inv in Ea as [Ea|Ea]; [|subst; destruct s; discriminate]. apply (H p s i v); [|auto]. unfold c_get. rewrite Ea, Eb. exact G.
Qed.
Lemma ask_ok : forall M c p s i, cache_ok M c -> cube c -> (p < length c)%nat -> (s < length c)%nat -> (i < length c)%nat ->
  exists c', cached_logaProb M c p s i = Some (logaProb M p s i, c') /\ cache_ok M c' /\ cube c' /\ length c' = length c.
Proof.
  intros M c p s i H C P S I. destruct (cube_get c p s i C P S I) as (v & E). unfold cached_logaProb. rewrite E.
  destruct (Rlt_dec v INVALID) as [L|L]; [exists c; rewrite (H _ _ _ _ E L); auto|].
  destruct (c_set c p s i (logaProb M p s i)) as [c'|] eqn:Q; [|unfold c_set in Q; rewrite E in Q; discriminate].
  exists c'. split; [reflexivity|]. destruct (c_set_cube _ _ _ _ _ _ C Q). split; [|auto].
  intros p' s' i' u U V. rewrite (c_set_get _ _ _ _ _ _ Q) in U. destruct (Nat.eqb p p' && Nat.eqb s s' && Nat.eqb i i')%bool eqn:B; [|eauto].
  apply andb_prop in B as [B B3]. apply andb_prop in B as [B1 B2]. apply Nat.eqb_eq in B1, B2, B3. subst. congruence.
Qed.
