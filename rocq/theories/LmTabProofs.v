(** Proofs about the count table of the language model. *)
From Coq Require Import Ascii String Arith NArith QArith Lqa List Bool Lia Permutation.
From Verif Require Import AMap ContainerSpec ContainerModel ContainerProofs TrieIterSpec TrieIterModel TrieIterProofs LmSpec LmModel LmDrive.
Import ListNotations.
Open Scope nat_scope.

Lemma nat_st : strict_total Nat.ltb.
Proof.
  constructor.
  - intro a. apply Nat.ltb_irrefl.
  - intros a b c. rewrite !Nat.ltb_lt. lia.
  - intros a b. rewrite !Nat.ltb_ge. lia.
Qed.

Definition val (p : list nat) (t : trie nat Q) : Q := match trie_walk Nat.ltb p t with Some (Some d) => d | _ => 0%Q end.
Notation twfn := (twf Nat.ltb).

Lemma tfind_val : forall k t, twfn t -> k <> [] -> exists r, tfind k t = Some r /\ val k t = match r with Some d => d | None => 0%Q end.
Proof.
  intros k t W NE. destruct (walk_total Nat.ltb nat_st k t W) as [r E]. exists r. unfold val. rewrite E. destruct k; [congruence|].
  unfold trie_find. rewrite E. auto.
Qed.

Lemma insert_val : forall k x (t : trie nat Q), twfn t -> k <> [] -> exists t', tinsert k x t = Some t' /\ twfn t' /\
  (forall p, p <> [] -> val p t' = if list_eq_dec Nat.eq_dec p k then x else val p t) /\
  (forall p d, p <> [] -> trie_walk Nat.ltb p t' = Some (Some d) -> p = k /\ d = x \/ trie_walk Nat.ltb p t = Some (Some d) \/ d = 0%Q).
Proof.
  intros k x t W NE. destruct (ins_ok Nat.ltb nat_st 0%Q k x t W) as (t' & E & W'). exists t'.
  split; [destruct k; [congruence|exact E]|]. split; auto.
  assert (H : forall p, exists old, trie_walk Nat.ltb p t = Some old /\ trie_walk Nat.ltb p t' = Some (after_ins Nat.eq_dec 0%Q k x p old)).
  { intro p. exact (walk_ins Nat.ltb nat_st Nat.eq_dec 0%Q k x t t' p W E). }
  split.
  - intros p Hp. destruct (H p) as (old & E1 & E2). unfold val. rewrite E1, E2. unfold after_ins. destruct (list_eq_dec Nat.eq_dec p k); auto.
    destruct old; auto. destruct (is_prefix Nat.eq_dec p k); auto.
  - intros p d Hp X. destruct (H p) as (old & E1 & E2). rewrite E2 in X. rewrite E1. unfold after_ins in X.
    destruct (list_eq_dec Nat.eq_dec p k); [left; injection X as ->; auto|]. right. destruct old as [y|]; [left; now injection X as ->|].
    destruct (is_prefix Nat.eq_dec p k); [|discriminate]. right. now injection X as <-.
Qed.

Lemma bump_val : forall k c (t : trie nat Q), twfn t -> k <> [] -> exists t', bump k c t = Some t' /\ twfn t' /\
  (forall p, p <> [] -> val p t' = if list_eq_dec Nat.eq_dec p k then (val k t + c)%Q else val p t).
Proof.
  intros k c t W NE. unfold bump. destruct (tfind_val k t W NE) as (r & E & V). rewrite E. cbn [obind].
  destruct r as [d|].
  - destruct (insert_val k (d + c)%Q t W NE) as (t' & E' & W' & H & _). exists t'. rewrite V. auto.
  - destruct (insert_val k (0 + c)%Q t W NE) as (t' & E' & W' & H & _). exists t'. rewrite V. auto.
Qed.

Definition tabwf (t : tab) : Prop := twfn (tst t) /\ twfn (tsi t).
Definition vst (s : list nat) (w : nat) (t : tab) : Q := val (s ++ [w]) (tst t).
Definition vs (s : list nat) (t : tab) : Q := match s with [] => ts0 t | _ => val s (tsi t) end.

Lemma snoc_ne : forall {A} (s : list A) w, s ++ [w] <> [].
Proof. intros A s w E. destruct s; discriminate. Qed.
Lemma snoc_inj : forall {A} (s s' : list A) w w', s ++ [w] = s' ++ [w'] -> s = s' /\ w = w'.
Proof. intros A s s' w w' E. apply app_inj_tail in E. exact E. Qed.

Lemma cSrcTrg_val : forall s w t, tabwf t -> cSrcTrg s w t = Some (vst s w t).
Proof.
  intros s w t [W _]. unfold cSrcTrg, vst. destruct (tfind_val (s ++ [w]) (tst t) W (snoc_ne s w)) as (r & E & V). rewrite E, V. cbn [obind].
  destruct r; auto.
Qed.
Lemma cSrc_val : forall s t, tabwf t -> cSrc s t = Some (vs s t).
Proof.
  intros s t [_ W]. unfold cSrc, vs. destruct s as [|a s]; auto. destruct (tfind_val (a :: s) (tsi t) W) as (r & E & V); [discriminate|]. rewrite E, V. cbn [obind].
  destruct r; auto.
Qed.
Lemma tab0_wf : tabwf tab0.
Proof. split; apply twf_empty. Qed.
Lemma val_empty : forall p, p <> [] -> val p (tempty 0%Q) = 0%Q.
Proof. intros p NE. unfold val, tempty. rewrite walk_empty. destruct p; congruence. Qed.
Lemma tab0_val : forall s w, vst s w tab0 = 0%Q /\ vs s tab0 = 0%Q.
Proof. intros s w. split; [apply val_empty, snoc_ne|]. destruct s; [reflexivity|]. apply val_empty. discriminate. Qed.

(** ** one call *)

Notation samen := (same Nat.eq_dec). Notation same_histn := (same_hist Nat.eq_dec).
Lemma same_snoc : forall (A : Type) (s s' : list nat) w w' (x y : A),
  (if list_eq_dec Nat.eq_dec (s ++ [w]) (s' ++ [w']) then x else y) = if samen s s' w w' then x else y.
Proof.
  intros A s s' w w' x y. unfold same. destruct (list_eq_dec Nat.eq_dec (s ++ [w]) (s' ++ [w'])) as [E|E].
  - apply snoc_inj in E. destruct E as [-> ->]. destruct (list_eq_dec Nat.eq_dec s' s'); [|congruence]. destruct (Nat.eq_dec w' w'); [auto|congruence].
  - destruct (list_eq_dec Nat.eq_dec s s') as [->|]; auto. destruct (Nat.eq_dec w w') as [->|]; congruence.
Qed.

Lemma tab_op_ok : forall o t, tabwf t -> exists t', tab_op o t = Some t' /\ tabwf t' /\
  (forall h w, vst h w t' = ngram_after Nat.eq_dec h w [o] (vst h w t)) /\
  (forall h, vs h t' = hist_after Nat.eq_dec h [o] (vs h t)).
Proof.
  intros [h w c|h w cs cst] t [W1 W2]; cbn [tab_op ngram_after hist_after].
  - unfold incrCountsOfEntry. destruct (bump_val (h ++ [w]) c (tst t) W1 (snoc_ne h w)) as (st & E & W1' & V). rewrite E. cbn [obind].
    assert (V' : forall h0 w0, val (h0 ++ [w0]) st = if samen h0 h w0 w then (vst h0 w0 t + c)%Q else vst h0 w0 t).
    { intros h0 w0. rewrite V by apply snoc_ne. unfold vst. destruct (list_eq_dec Nat.eq_dec (h0 ++ [w0]) (h ++ [w])) as [E0|E0].
      - apply snoc_inj in E0. destruct E0 as [-> ->]. unfold same. destruct (list_eq_dec Nat.eq_dec h h); [|congruence]. destruct (Nat.eq_dec w w); [auto|congruence].
      - unfold same. destruct (list_eq_dec Nat.eq_dec h0 h) as [->|]; auto. destruct (Nat.eq_dec w0 w) as [->|]; congruence. }
    destruct h as [|a h].
    + eexists; split; [reflexivity|]. split; [split; auto|]. split.
      * intros h0 w0. apply V'.
      * intro h0. unfold vs, same_hist. cbn [ts0 tsi]. destruct h0 as [|b h0]; [destruct (list_eq_dec Nat.eq_dec [] []); congruence|]. destruct (list_eq_dec Nat.eq_dec (b :: h0) []); [discriminate|reflexivity].
    + destruct (bump_val (a :: h) c (tsi t) W2) as (si & E2 & W2' & V2); [discriminate|]. rewrite E2. cbn [obind].
      eexists; split; [reflexivity|]. split; [split; auto|]. split.
      * intros h0 w0. apply V'.
      * intro h0. unfold vs, same_hist. cbn [ts0 tsi]. destruct h0 as [|b h0].
        -- destruct (list_eq_dec Nat.eq_dec [] (a :: h)); [discriminate|reflexivity].
        -- rewrite V2 by discriminate. destruct (list_eq_dec Nat.eq_dec (b :: h0) (a :: h)) as [->|]; auto.
  - unfold addTableEntry.
    assert (S1 : exists t1, addSrcInfo h cs t = Some t1 /\ tst t1 = tst t /\ twfn (tsi t1) /\ forall h0, vs h0 t1 = if same_histn h0 h then cs else vs h0 t).
    { unfold addSrcInfo, same_hist. destruct h as [|a h].
      - eexists; split; [reflexivity|]. split; auto. split; auto. intro h0. unfold vs. cbn [ts0 tsi].
        destruct h0; [destruct (list_eq_dec Nat.eq_dec [] []); congruence|]. destruct (list_eq_dec Nat.eq_dec (n :: h0) []); [discriminate|reflexivity].
      - destruct (insert_val (a :: h) cs (tsi t) W2) as (si & E & W' & V & _); [discriminate|]. rewrite E. cbn [obind].
        eexists; split; [reflexivity|]. split; auto. split; auto. intro h0. unfold vs. cbn [ts0 tsi]. destruct h0 as [|b h0].
        + destruct (list_eq_dec Nat.eq_dec [] (a :: h)); [discriminate|reflexivity].
        + rewrite V by discriminate. destruct (list_eq_dec Nat.eq_dec (b :: h0) (a :: h)); auto. }
    destruct S1 as (t1 & E1 & Et & W2' & V1). rewrite E1. cbn [obind]. unfold addSrcTrgInfo. rewrite Et.
    destruct (insert_val (h ++ [w]) cst (tst t) W1 (snoc_ne h w)) as (st & E & W1' & V & _). rewrite E. cbn [obind].
    eexists; split; [reflexivity|]. split; [split; auto|]. split.
    + intros h0 w0. unfold vst. cbn [tst]. rewrite V by apply snoc_ne. apply same_snoc.
    + intro h0. rewrite <- V1. reflexivity.
Qed.

Lemma tab_run_ok : forall ops t, tabwf t -> exists t', tab_run ops t = Some t' /\ tabwf t' /\
  (forall h w, vst h w t' = ngram_after Nat.eq_dec h w ops (vst h w t)) /\ (forall h, vs h t' = hist_after Nat.eq_dec h ops (vs h t)).
Proof.
  induction ops as [|o ops IH]; intros t W; [exists t; repeat split; apply W|]. cbn [tab_run].
  destruct (tab_op_ok o t W) as (t1 & E & W1 & A & B). rewrite E. cbn [obind]. destruct (IH t1 W1) as (t2 & E2 & W2 & A2 & B2).
  exists t2. split; auto. split; auto. split; intros.
  - rewrite A2, A. destruct o; reflexivity.
  - rewrite B2, B. destruct o; reflexivity.
Qed.

Theorem tab_counts : forall ops, exists t, tab_run ops tab0 = Some t /\
  (forall h w, cSrcTrg h w t = Some (ngram_after Nat.eq_dec h w ops 0)) /\ (forall h, cSrc h t = Some (hist_after Nat.eq_dec h ops 0)).
Proof.
  intro ops. destruct (tab_run_ok ops tab0 tab0_wf) as (t & E & W & A & B). exists t. split; auto. split; intros.
  - rewrite cSrcTrg_val by auto. rewrite A. f_equal. f_equal. apply tab0_val.
  - rewrite cSrc_val by auto. rewrite B. f_equal. f_equal. apply tab0_val. exact 0.
Qed.

(** ** increments only *)
Section ANYW.
Context {W : Type}.
Variable weq : forall a b : W, {a = b} + {a <> b}.
Lemma ngram_after_incrs : forall h w evs cur, (ngram_after weq h w (incrs evs) cur == cur + total_ngram weq h w evs)%Q.
Proof.
  intros h w. induction evs as [|[[h' w'] c] evs IH]; intro cur.
  - cbn. ring.
  - unfold incrs, total_ngram in *. cbn [map fold_right fst snd ngram_after]. rewrite IH. destruct (same weq h h' w w'); ring.
Qed.
Lemma hist_after_incrs : forall h evs cur, (hist_after weq h (incrs evs) cur == cur + total_hist weq h evs)%Q.
Proof.
  intros h. induction evs as [|[[h' w'] c] evs IH]; intro cur.
  - cbn. ring.
  - unfold incrs, total_hist in *. cbn [map fold_right fst snd hist_after]. rewrite IH. destruct (same_hist weq h h'); ring.
Qed.
Lemma qsum_add : forall (f g : W -> Q) ts, (qsum (map (fun w => f w + g w) ts) == qsum (map f ts) + qsum (map g ts))%Q.
Proof. intros f g. induction ts as [|w ts IH]; cbn; [ring|]. unfold qsum in IH. rewrite IH. ring. Qed.
Lemma qsum_ext : forall (f g : W -> Q) ts, (forall w, In w ts -> f w == g w)%Q -> (qsum (map f ts) == qsum (map g ts))%Q.
Proof. intros f g. induction ts as [|w ts IH]; intro H; cbn; [ring|]. unfold qsum in IH. rewrite IH by (intros; apply H; now right). rewrite (H w (or_introl eq_refl)). ring. Qed.
Lemma qsum_zero : forall (f : W -> Q) ts, (forall w, In w ts -> f w == 0)%Q -> (qsum (map f ts) == 0)%Q.
Proof. intros f. induction ts as [|w ts IH]; intro H; cbn; [ring|]. unfold qsum in IH. rewrite IH by (intros; apply H; now right). rewrite (H w (or_introl eq_refl)). ring. Qed.
Lemma qsum_single : forall x c ts, NoDup ts -> In x ts -> (qsum (map (fun w => if weq w x then c else 0) ts) == c)%Q.
Proof.
  intros x c. induction ts as [|w ts IH]; intros ND I; [destruct I|]. inversion ND as [|? ? NI ND']; subst. cbn [map qsum fold_right].
  destruct (weq w x) as [->|NE].
  - fold (qsum (map (fun w => if weq w x then c else 0%Q) ts)). rewrite qsum_zero; [ring|]. intros w I'. destruct (weq w x) as [->|]; [contradiction|reflexivity].
  - destruct I as [->|I]; [congruence|]. fold (qsum (map (fun w => if weq w x then c else 0%Q) ts)). rewrite IH; auto. ring.
Qed.
(** the history total is the sum of the n-gram totals over any duplicate-free list containing the words seen after it *)
Lemma hist_is_sum : forall h ts evs, NoDup ts -> (forall w c, In (h, w, c) evs -> In w ts) ->
  (total_hist weq h evs == qsum (map (fun w => total_ngram weq h w evs) ts))%Q.
Proof.
  intros h ts evs ND. induction evs as [|[[h' w'] c] evs IH]; intro H.
  - cbn. symmetry. apply qsum_zero. reflexivity.
  - unfold total_hist, total_ngram in *. cbn [fold_right fst snd]. rewrite qsum_add. rewrite <- IH by (intros; eapply H; right; eauto).
    enough (E : (qsum (map (fun w => if same weq h h' w w' then c else 0) ts) == (if same_hist weq h h' then c else 0))%Q) by (rewrite E; reflexivity).
    unfold same, same_hist. destruct (list_eq_dec weq h h') as [<-|NE].
    + rewrite <- (qsum_single w' c ts ND) by (eapply H; left; eauto). apply qsum_ext. intros w _. destruct (weq w w'); reflexivity.
    + apply qsum_zero. reflexivity.
Qed.
Lemma total_nonneg : forall h w evs, nonneg_counts evs -> (0 <= total_ngram weq h w evs)%Q.
Proof.
  intros h w. induction evs as [|e evs IH]; intro H; [apply Qle_refl|]. unfold total_ngram, total_hist in *; cbn [fold_right].
  assert (A : (0 <= snd e)%Q) by (apply H; now left). assert (B := IH (fun e' I => H e' (or_intror I))).
  destruct (same _ _ _ _ _); lra.
Qed.
Lemma hist_nonneg : forall h evs, nonneg_counts evs -> (0 <= total_hist weq h evs)%Q.
Proof.
  intros h. induction evs as [|e evs IH]; intro H; [apply Qle_refl|]. unfold total_ngram, total_hist in *; cbn [fold_right].
  assert (A : (0 <= snd e)%Q) by (apply H; now left). assert (B := IH (fun e' I => H e' (or_intror I))).
  destruct (same_hist _ _ _); lra.
Qed.
Lemma ngram_le_hist : forall h w evs, nonneg_counts evs -> (total_ngram weq h w evs <= total_hist weq h evs)%Q.
Proof.
  intros h w. induction evs as [|e evs IH]; intro H; [apply Qle_refl|]. unfold total_ngram, total_hist in *; cbn [fold_right].
  assert (A : (0 <= snd e)%Q) by (apply H; now left). assert (B := IH (fun e' I => H e' (or_intror I))).
  assert (X : same weq h (fst (fst e)) w (snd (fst e)) = true -> same_hist weq h (fst (fst e)) = true).
  { unfold same, same_hist. destruct (list_eq_dec weq h (fst (fst e))); [auto|discriminate]. }
  destruct (same weq h (fst (fst e)) w (snd (fst e))); [rewrite X by auto; lra|]. destruct (same_hist weq h (fst (fst e))); lra.
Qed.
End ANYW.
