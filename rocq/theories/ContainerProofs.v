From Coq Require Import Arith ZArith List Bool Lia Sorting.Sorted Permutation.
From Verif Require Import ContainerSpec ContainerModel.
Import ListNotations.

Section OVP.
Context {K D : Type}.
Variable ltb : K -> K -> bool.
Hypothesis ST : strict_total ltb.
Notation ov := (list (K * D)).
Definition klt (p q : K * D) : Prop := ltb (fst p) (fst q) = true.
Definition ov_sorted (v : ov) : Prop := StronglySorted klt v.

Lemma ss_nth : forall v i j p q, ov_sorted v -> i < j -> nth_error v i = Some p -> nth_error v j = Some q -> klt p q.
Proof.
  intros v i j p q H. revert i j. induction H; intros i j Hij Hi Hj.
  - destruct i; discriminate.
  - destruct j; [lia|]. destruct i; simpl in *.
    + inversion Hi; subst. rewrite Forall_forall in H0. apply H0. eapply nth_error_In; eauto.
    + apply (IHStronglySorted i j); auto; lia.
Qed.

(** result of a search: position of the key, or the insertion point *)
Definition fi_spec (v : ov) (k : K) (res : option (bool * nat)) : Prop :=
  (exists i d, res = Some (true, i) /\ nth_error v i = Some (k, d)) \/
  (exists i, res = Some (false, i) /\ i <= length v /\
     (forall j p, j < i -> nth_error v j = Some p -> ltb (fst p) k = true) /\
     (forall j p, i <= j -> nth_error v j = Some p -> ltb k (fst p) = true)).

Lemma fi_loop_ok : forall fuel v k l r, ov_sorted v -> r - l < fuel -> l <= r -> r <= length v ->
  (forall j p, j < l -> nth_error v j = Some p -> ltb (fst p) k = true) ->
  (forall j p, r <= j -> nth_error v j = Some p -> ltb k (fst p) = true) ->
  fi_spec v k (fi_loop ltb fuel v k l r).
Proof.
  induction fuel; intros v k l r Hs Hf Hlr Hr Hl Hh; [lia|]. cbn [fi_loop].
  destruct (Nat.ltb_spec l r) as [Lt|Ge].
  - set (mid := (l + r) / 2). assert (Hm : l <= mid < r).
    { unfold mid. split; [apply Nat.div_le_lower_bound; lia|apply Nat.div_lt_upper_bound; lia]. }
    clearbody mid. destruct (nth_error v mid) as [[km dm]|] eqn:E.
    2:{ apply nth_error_None in E. lia. }
    destruct (ltb k km) eqn:E1.
    + apply IHfuel; auto; try lia. intros j p Hj Hp. destruct (Nat.eq_dec j mid) as [->|NE].
      * rewrite E in Hp. inversion Hp; subst. auto.
      * assert (klt (km, dm) p) by (eapply ss_nth with (i:=mid) (j:=j); eauto; lia).
        eapply (st_trans _ ST); eauto.
    + destruct (ltb km k) eqn:E2.
      * apply IHfuel; auto; try lia. intros j p Hj Hp. destruct (Nat.eq_dec j mid) as [->|NE].
        -- rewrite E in Hp. inversion Hp; subst. auto.
        -- assert (klt p (km, dm)) by (eapply ss_nth with (i:=j) (j:=mid); eauto; lia).
           eapply (st_trans _ ST); eauto.
      * left. exists mid, dm. assert (km = k) by (apply (st_total _ ST); auto). subst. auto.
  - assert (l = r) by lia. subst r. destruct (Nat.eqb_spec l (length v)) as [->|NE].
    + right. exists (length v). repeat split; auto.
    + destruct (nth_error v l) as [[kl dl]|] eqn:E.
      2:{ apply nth_error_None in E. lia. }
      replace (ltb k kl) with true by (symmetry; exact (Hh l (kl, dl) (le_n _) E)). right. exists l. repeat split; auto.
Qed.

Lemma findIndex_ok : forall v k, ov_sorted v -> fi_spec v k (findIndex ltb v k).
Proof.
  intros v k H. unfold findIndex. destruct v as [|p v].
  - right. exists 0. repeat split; auto; intros [|j] q; discriminate.
  - apply fi_loop_ok; auto; try lia. intros j q Hj Hq. apply nth_error_None in Hj. congruence.
Qed.

Lemma irr : forall k, ltb k k = true -> False.
Proof. intros k H. rewrite (st_irrefl _ ST) in H. discriminate. Qed.

(** findPtr returns the unique value paired with the key *)
Lemma findPtr_some : forall v k d, ov_sorted v -> (ov_findPtr ltb v k = Some (Some d) <-> In (k, d) v).
Proof.
  intros v k d H. unfold ov_findPtr. destruct (findIndex_ok v k H) as [(i & d0 & E & N)|(i & E & L & A & B)]; rewrite E.
  - rewrite N. split.
    + intro X. inversion X; subst. eapply nth_error_In; eauto.
    + intro X. apply In_nth_error in X. destruct X as [j Hj]. destruct (Nat.lt_trichotomy i j) as [Lt|[->|Gt]].
      * pose proof (ss_nth v i j _ _ H Lt N Hj) as Q. destruct (irr k Q).
      * congruence.
      * pose proof (ss_nth v j i _ _ H Gt Hj N) as Q. destruct (irr k Q).
  - split; [discriminate|]. intro X. exfalso. apply In_nth_error in X. destruct X as [j Hj].
    destruct (Nat.lt_ge_cases j i) as [Lt|Ge].
    + apply (irr k). apply (A j (k, d)); auto.
    + apply (irr k). apply (B j (k, d)); auto.
Qed.
Lemma findPtr_total : forall v k, ov_sorted v -> exists r, ov_findPtr ltb v k = Some r.
Proof.
  intros v k H. unfold ov_findPtr. destruct (findIndex_ok v k H) as [(i & d0 & E & N)|(i & E & _)]; rewrite E; [rewrite N|]; eauto.
Qed.
Lemma findPtr_none : forall v k, ov_sorted v -> (ov_findPtr ltb v k = Some None <-> forall d, ~ In (k, d) v).
Proof.
  intros v k H. destruct (findPtr_total v k H) as [[d|] E]; rewrite E.
  - split; [discriminate|]. intro X. destruct (X d). apply findPtr_some; auto.
  - split; auto. intros _ d X. apply findPtr_some in X; auto. congruence.
Qed.

Lemma set_second_split : forall i (v : ov) k d d0, nth_error v i = Some (k, d0) ->
  set_second i d v = firstn i v ++ (k, d) :: skipn (S i) v /\ v = firstn i v ++ (k, d0) :: skipn (S i) v.
Proof.
  induction i; destruct v as [|[k' d'] v]; intros k d d0 H; simpl in H; try discriminate.
  - inversion H; subst. auto.
  - simpl. destruct (IHi v k d d0 H) as [A B]. simpl in A, B. rewrite <- A, <- B. auto.
Qed.

Lemma ss_app : forall a b : ov, ov_sorted (a ++ b) <-> ov_sorted a /\ ov_sorted b /\ forall p q, In p a -> In q b -> klt p q.
Proof.
  induction a as [|x a IH]; intro b; simpl.
  - split; [intro H; split; [constructor|split; auto; intros; contradiction]|tauto].
  - split.
    + intro H. apply StronglySorted_inv in H. destruct H as [H F]. apply IH in H. destruct H as (Ha & Hb & Hab).
      rewrite Forall_app in F. destruct F as [Fa Fb]. split; [constructor; auto|split; auto].
      intros p q [->|Hp] Hq; auto. rewrite Forall_forall in Fb. auto.
    + intros (Ha & Hb & Hab). apply StronglySorted_inv in Ha. destruct Ha as [Ha Fa]. constructor.
      * apply IH. repeat split; auto.
      * apply Forall_app. split; auto. apply Forall_forall. intros q Hq. apply Hab; auto.
Qed.

Lemma In_firstn_nth : forall n (v : ov) p, In p (firstn n v) -> exists j, j < n /\ nth_error v j = Some p.
Proof.
  induction n; destruct v; simpl; intros q H; try contradiction. destruct H as [->|H].
  - exists 0. split; [lia|auto].
  - apply IHn in H. destruct H as (j & Hj & E). exists (S j). split; [lia|auto].
Qed.
Lemma In_skipn_nth : forall n (v : ov) p, In p (skipn n v) -> exists j, n <= j /\ nth_error v j = Some p.
Proof.
  induction n; intros v p H.
  - rewrite skipn_O in H. apply In_nth_error in H. destruct H as [j Hj]. exists j. split; [lia|auto].
  - destruct v; simpl in H; [contradiction|]. apply IHn in H. destruct H as (j & Hj & E). exists (S j). split; [lia|auto].
Qed.

(** effect of push: sorted again, the pair is there, other keys as before, size *)
Lemma push_ok : forall v k d, ov_sorted v ->
  exists v', ov_push ltb v k d = Some v' /\ ov_sorted v' /\
    (forall k' d', In (k', d') v' <-> (k' = k /\ d' = d) \/ (k' <> k /\ In (k', d') v)) /\
    length v' = (if ov_findPtr ltb v k then match ov_findPtr ltb v k with Some (Some _) => length v | _ => S (length v) end else 0).
Proof.
  intros v k d H.
  assert (Hp : match findIndex ltb v k with
               | None => None
               | Some (true, i) => Some (set_second i d v)
               | Some (false, i) => Some (firstn i v ++ (k, d) :: skipn i v)
               end = ov_push ltb v k d).
  { destruct v; reflexivity. }
  rewrite <- Hp. clear Hp. unfold ov_findPtr.
  destruct (findIndex_ok v k H) as [(i & d0 & E & N)|(i & E & L & A & B)]; rewrite E.
  - rewrite N. destruct (set_second_split i v k d d0 N) as [S1 S2]. eexists; split; [reflexivity|]. rewrite S1.
    assert (Hs' := H). rewrite S2 in Hs'. apply ss_app in Hs'. destruct Hs' as (Ha & Hb & Hab).
    apply StronglySorted_inv in Hb. destruct Hb as [Hb Fb]. rewrite Forall_forall in Fb.
    split; [|split].
    + apply ss_app. repeat split; auto.
      * constructor; auto. apply Forall_forall. intros q Hq. exact (Fb q Hq).
      * intros p q Hp [<-|Hq]; [exact (Hab p (k, d0) Hp (or_introl eq_refl))|apply Hab; simpl; auto].
    + intros k' d'. rewrite S2 at 3. rewrite !in_app_iff. simpl.
      assert (NA : forall x y, In (x, y) (firstn i v) -> x <> k).
      { intros x y Hx ->. apply (irr k). exact (Hab (k, y) (k, d0) Hx (or_introl eq_refl)). }
      assert (NB : forall x y, In (x, y) (skipn (S i) v) -> x <> k).
      { intros x y Hx ->. apply (irr k). exact (Fb _ Hx). }
      split.
      * intros [X|[X|X]]; [right; split; eauto|left; inversion X; auto|right; split; eauto].
      * intros [[-> ->]|[NE [X|[X|X]]]]; auto. inversion X; subst; contradiction.
    + rewrite S2 at 3. rewrite !app_length. reflexivity.
  - eexists; split; [reflexivity|].
    assert (A' : forall p, In p (firstn i v) -> ltb (fst p) k = true).
    { intros p Hp. apply In_firstn_nth in Hp. destruct Hp as (j & Hj & Ej). eauto. }
    assert (B' : forall p, In p (skipn i v) -> ltb k (fst p) = true).
    { intros p Hp. apply In_skipn_nth in Hp. destruct Hp as (j & Hj & Ej). eauto. }
    assert (Hs' := H). rewrite <- (firstn_skipn i v) in Hs'. apply ss_app in Hs'. destruct Hs' as (Ha & Hb & Hab).
    split; [|split].
    + apply ss_app. split; [exact Ha|split].
      * constructor; auto. apply Forall_forall. intros q Hq. exact (B' q Hq).
      * intros p q Hp [<-|Hq]; [exact (A' p Hp)|apply Hab; auto].
    + intros k' d'. rewrite <- (firstn_skipn i v) at 3. rewrite !in_app_iff. simpl. split.
      * intros [X|[X|X]]; [right|left; inversion X; auto|right]; split; auto; intros ->; apply (irr k); [exact (A' _ X)|exact (B' _ X)].
      * intros [[-> ->]|[NE [X|X]]]; auto.
    + rewrite <- (firstn_skipn i v) at 3. rewrite !app_length. simpl. lia.
Qed.

Lemma removelast_sorted : forall v, ov_sorted v -> ov_sorted (removelast v).
Proof.
  intros v H. destruct v as [|p v] using rev_ind; [auto|]. rewrite removelast_last. apply ss_app in H. tauto.
Qed.

Lemma index_ok : forall dflt v k, ov_sorted v ->
  exists v', ov_index ltb dflt v k = Some v' /\ ov_sorted v' /\
    match ov_findPtr ltb v k with Some (Some _) => v' = v | _ => ov_push ltb v k dflt = Some v' end.
Proof.
  intros dflt v k H. unfold ov_index, ov_findPtr. destruct (findIndex_ok v k H) as [(i & d0 & E & N)|(i & E & _)]; rewrite E.
  - rewrite N. eauto.
  - destruct (push_ok v k dflt H) as (v' & P & S & _). exists v'. auto.
Qed.

Lemma step_ok : forall dflt v o, ov_sorted v -> exists v', ov_step ltb dflt v o = Some v' /\ ov_sorted v'.
Proof.
  intros dflt v o H. destruct o; simpl.
  - destruct (push_ok v k d H) as (v' & P & S & _). eauto.
  - destruct (index_ok dflt v k H) as (v' & P & S & _). eauto.
  - eexists; split; [reflexivity|]. apply removelast_sorted; auto.
  - eexists; split; [reflexivity|constructor].
Qed.

Lemma run_ok : forall dflt h v, ov_sorted v -> exists v', ov_run ltb dflt v h = Some v' /\ ov_sorted v'.
Proof.
  intros dflt h; induction h as [|o h IH]; intros v H; simpl; [eauto|].
  destruct (step_ok dflt v o H) as (v' & E & S). rewrite E. auto.
Qed.

Lemma run_app : forall dflt h (v : ov) (o : ov_op K D), ov_run ltb dflt v (h ++ [o]) =
  match ov_run ltb dflt v h with None => None | Some v' => ov_step ltb dflt v' o end.
Proof.
  intros dflt h; induction h as [|a h IH]; intros v o; simpl; [destruct (ov_step ltb dflt v o); auto|].
  destruct (ov_step ltb dflt v a); auto.
Qed.

(** lookup after push *)
Lemma push_find : forall v k d v', ov_sorted v -> ov_push ltb v k d = Some v' ->
  ov_findPtr ltb v' k = Some (Some d) /\ forall k', k' <> k -> ov_findPtr ltb v' k' = ov_findPtr ltb v k'.
Proof.
  intros v k d v' H P. destruct (push_ok v k d H) as (v0 & P0 & S0 & I0 & _). rewrite P in P0. inversion P0; subst v0.
  split.
  - apply findPtr_some; auto. apply I0. auto.
  - intros k' NE. destruct (findPtr_total v k' H) as [[d'|] E]; rewrite E.
    + apply findPtr_some; auto. apply I0. right. split; auto. apply findPtr_some; auto.
    + apply findPtr_none; auto. intros d' X. apply I0 in X. destruct X as [[-> _]|[_ X]]; [contradiction|].
      apply findPtr_some in X; auto. congruence.
Qed.

Theorem ov_history : forall (keq : forall a b : K, {a = b} + {a <> b}) (dflt : D) h v0 v cur k,
  ov_sorted v0 -> no_pop h -> ov_findPtr ltb v0 k = Some cur -> ov_run ltb dflt v0 h = Some v ->
  ov_findPtr ltb v k = Some (last_stored keq dflt h k cur).
Proof.
  intros keq dflt h; induction h as [|o h IH]; intros v0 v cur k Hs Hn Hc Hr; simpl in Hr.
  - inversion Hr; subst. auto.
  - assert (Hn' : no_pop h) by (intro X; apply Hn; simpl; auto).
    destruct (step_ok dflt v0 o Hs) as (v1 & E & S1). rewrite E in Hr.
    destruct o; simpl in E; simpl.
    + destruct (push_find v0 k0 d v1 Hs E) as [F1 F2]. eapply IH; eauto.
      destruct (keq k0 k) as [->|NE]; [auto|]. rewrite F2; auto.
    + destruct (index_ok dflt v0 k0 Hs) as (v2 & E2 & _ & M). rewrite E in E2. inversion E2; subst v2.
      eapply IH; eauto.
      destruct (findPtr_total v0 k0 Hs) as [[d0|] E0]; rewrite E0 in M.
      * subst v1. destruct (keq k0 k) as [->|NE]; auto. rewrite Hc in E0. inversion E0; subst. auto.
      * destruct (push_find v0 k0 dflt v1 Hs M) as [F1 F2]. destruct (keq k0 k) as [->|NE].
        -- rewrite Hc in E0. inversion E0; subst. auto.
        -- rewrite F2; auto.
    + destruct Hn. simpl; auto.
    + inversion E; subst. eapply IH; eauto.
Qed.

Lemma sorted_keys_nodup : forall v, ov_sorted v -> NoDup (map fst v).
Proof.
  intros v H; induction H; simpl; constructor; auto.
  intro X. apply in_map_iff in X. destruct X as (q & E & Q). rewrite Forall_forall in H0. apply H0 in Q.
  unfold klt in Q. rewrite E in Q. exact (irr _ Q).
Qed.

Theorem ov_sorted_reachable : forall (dflt : D) h, exists v, ov_run ltb dflt [] h = Some v /\ ov_sorted v.
Proof. intros. apply run_ok. constructor. Qed.

Lemma empty_find : forall k, ov_findPtr ltb ([] : ov) k = Some None.
Proof. reflexivity. Qed.

Theorem ov_history0 : forall (keq : forall a b : K, {a = b} + {a <> b}) (dflt : D) h v k,
  no_pop h -> ov_run ltb dflt [] h = Some v -> ov_findPtr ltb v k = Some (last_stored keq dflt h k None).
Proof. intros keq dflt h v k Hn Hr. apply (ov_history keq dflt h [] v None k); auto. constructor. Qed.

Theorem ov_size_history : forall (keq : forall a b : K, {a = b} + {a <> b}) (dflt : D) h v,
  no_pop h -> ov_run ltb dflt [] h = Some v ->
  exists ks, NoDup ks /\ length v = length ks /\ forall k, In k ks <-> last_stored keq dflt h k None <> None.
Proof.
  intros keq dflt h v Hn Hr. destruct (ov_sorted_reachable dflt h) as (v' & E & S). rewrite Hr in E. inversion E; subst v'.
  exists (map fst v). split; [now apply sorted_keys_nodup|]. split; [now rewrite map_length|].
  intro k. pose proof (ov_history0 keq dflt h v k Hn Hr) as F. split.
  - intros X C. rewrite C in F. apply in_map_iff in X. destruct X as ([k' d] & Ek & X). simpl in Ek. subst k'.
    apply (proj1 (findPtr_none v k S)) with (d := d) in F. auto.
  - intro NC. destruct (last_stored keq dflt h k None) as [d|]; [|congruence]. apply findPtr_some in F; auto.
    apply in_map_iff. exists (k, d). auto.
Qed.

(** pop removes exactly the largest key, which is what top shows *)
Theorem ov_pop_law : forall (dflt : D) h v, ov_run ltb dflt [] h = Some v -> v <> [] ->
  exists k d, ov_top v = Some (k, d) /\ (forall k' d', In (k', d') v -> k' <> k -> ltb k' k = true) /\
    ov_findPtr ltb v k = Some (Some d) /\ ov_findPtr ltb (ov_pop v) k = Some None /\
    forall k', k' <> k -> ov_findPtr ltb (ov_pop v) k' = ov_findPtr ltb v k'.
Proof.
  intros dflt h v Hr NE. destruct (ov_sorted_reachable dflt h) as (v' & E & S). rewrite Hr in E. inversion E; subst v'.
  destruct v as [|[k d] w _] using rev_ind; [congruence|]. exists k, d. unfold ov_top, ov_pop.
  assert (S' := S). apply ss_app in S'. destruct S' as (Sw & _ & Swk).
  assert (NI : forall d0, ~ In (k, d0) w) by (intros d0 X; exact (irr k (Swk (k, d0) (k, d) X (or_introl eq_refl)))).
  split; [|split; [|split; [|split]]].
  - rewrite app_length. simpl. rewrite nth_error_app2 by lia. replace (length w + 1 - 1 - length w) with 0 by lia. auto.
  - intros k' d' X N. apply in_app_iff in X. destruct X as [X|[X|[]]]; [|inversion X; subst; contradiction].
    exact (Swk (k', d') (k, d) X (or_introl eq_refl)).
  - apply findPtr_some; auto. apply in_app_iff. simpl. auto.
  - rewrite removelast_last. apply findPtr_none; auto.
  - intros k' N. rewrite removelast_last. destruct (findPtr_total w k' Sw) as [[d'|] E']; rewrite E'; symmetry.
    + apply findPtr_some; auto. apply in_app_iff. left. apply findPtr_some; auto.
    + apply findPtr_none; auto. intros d' X. apply in_app_iff in X. destruct X as [X|[X|[]]].
      * apply findPtr_some in X; auto. congruence.
      * inversion X; subst; contradiction.
Qed.
End OVP.

Section TRIEP.
Context {K D : Type}.
Variable ltb : K -> K -> bool.
Hypothesis ST : strict_total ltb.
Variable keq : forall a b : K, {a = b} + {a <> b}.
Variable dflt : D.
Notation tr := (trie K D).

Inductive twf : tr -> Prop :=
| twf_node : forall d ch, ov_sorted ltb ch -> (forall k c, In (k, c) ch -> twf c) -> twf (Node d ch).

Lemma twf_inv : forall t, twf t -> ov_sorted ltb (tch t) /\ forall k c, In (k, c) (tch t) -> twf c.
Proof. intros t H. inversion H; subst; simpl; auto. Qed.
Lemma twf_empty : twf (tempty dflt).
Proof. constructor; [constructor|intros k c []]. Qed.

Lemma ins_ok : forall ks d t, twf t -> exists t', trie_ins ltb dflt ks d t = Some t' /\ twf t'.
Proof.
  induction ks as [|k ks IH]; intros d t H; destruct (twf_inv t H) as [S C]; simpl.
  - eexists; split; [reflexivity|]. constructor; auto.
  - destruct (findPtr_total ltb ST (tch t) k S) as [r E]. rewrite E.
    assert (Hc : twf (match r with Some c => c | None => tempty dflt end)).
    { destruct r as [c|]; [|apply twf_empty]. apply (findPtr_some ltb ST) in E; eauto. }
    destruct (IH d _ Hc) as (c' & E' & Hc'). rewrite E'.
    destruct (push_ok ltb ST (tch t) k c' S) as (ch' & P & S' & I & _). rewrite P.
    eexists; split; [reflexivity|]. constructor; auto. intros k0 c0 X. apply I in X. destruct X as [[-> ->]|[_ X]]; eauto.
Qed.

Lemma walk_total : forall ks t, twf t -> exists r, trie_walk ltb ks t = Some r.
Proof.
  induction ks as [|k ks IH]; intros t H; destruct (twf_inv t H) as [S C]; simpl; [eauto|].
  destruct (findPtr_total ltb ST (tch t) k S) as [[c|] E]; rewrite E; [|eauto].
  apply IH. apply (findPtr_some ltb ST) in E; eauto.
Qed.

Fixpoint is_prefix (p k : list K) : bool :=
  match p, k with
  | [], _ => true
  | a :: p', b :: k' => if keq a b then is_prefix p' k' else false
  | _, _ => false
  end.
Lemma is_prefix_ok : forall p k, is_prefix p k = true <-> exists r, k = p ++ r.
Proof.
  induction p as [|a p IH]; intros k; simpl.
  - split; [eauto|auto].
  - destruct k as [|b k].
    + split; [discriminate|intros [r X]; discriminate].
    + destruct (keq a b) as [->|NE].
      * rewrite IH. split; intros [r X]; exists r; [now subst|now inversion X].
      * split; [discriminate|intros [r X]; inversion X; congruence].
Qed.

(** what find sees after one insertion *)
Definition after_ins (ks : list K) (d : D) (p : list K) (old : option D) : option D :=
  if list_eq_dec keq p ks then Some d
  else match old with Some x => Some x | None => if is_prefix p ks then Some dflt else None end.

Lemma after_ins_cons : forall k ks d p old, after_ins (k :: ks) d (k :: p) old = after_ins ks d p old.
Proof.
  intros k ks d p old. unfold after_ins. replace (is_prefix (k :: p) (k :: ks)) with (is_prefix p ks)
    by (cbn [is_prefix]; destruct (keq k k); congruence).
  destruct (list_eq_dec keq p ks), (list_eq_dec keq (k :: p) (k :: ks)); try congruence.
Qed.
Lemma walk_empty : forall p d, trie_walk ltb p (@Node K D d []) = Some (match p with [] => Some d | _ => None end).
Proof. destruct p; reflexivity. Qed.

Lemma walk_ins : forall ks d t t' p, twf t -> trie_ins ltb dflt ks d t = Some t' ->
  exists old, trie_walk ltb p t = Some old /\ trie_walk ltb p t' = Some (after_ins ks d p old).
Proof.
  induction ks as [|k ks IH]; intros d t t' p H E; destruct (twf_inv t H) as [S C]; simpl in E.
  - inversion E; subst t'. destruct p as [|a p].
    + simpl. eexists; split; [reflexivity|]. unfold after_ins. destruct (list_eq_dec keq [] []); congruence.
    + destruct (walk_total (a :: p) t H) as [old Eo]. exists old. split; auto.
      transitivity (trie_walk ltb (a :: p) t); [reflexivity|]. rewrite Eo. unfold after_ins.
      destruct (list_eq_dec keq (a :: p) []); [discriminate|]. destruct old; auto.
  - destruct (findPtr_total ltb ST (tch t) k S) as [r Ef]. rewrite Ef in E.
    set (c := match r with Some c => c | None => tempty dflt end) in *.
    assert (Hc : twf c). { unfold c. destruct r as [c0|]; [|apply twf_empty]. apply (findPtr_some ltb ST) in Ef; eauto. }
    destruct (ins_ok ks d c Hc) as (c' & E' & _). rewrite E' in E.
    destruct (push_ok ltb ST (tch t) k c' S) as (ch' & P & S' & I & _). rewrite P in E. inversion E; subst t'.
    destruct (push_find ltb ST (tch t) k c' ch' S P) as [F1 F2].
    destruct p as [|a p].
    + simpl. eexists; split; [reflexivity|]. unfold after_ins. destruct (list_eq_dec keq [] (k :: ks)); [discriminate|reflexivity].
    + simpl. destruct (keq a k) as [->|NE].
      * rewrite F1, Ef. destruct (IH d c c' p Hc E') as (old & O1 & O2).
        destruct r as [c0|].
        -- unfold c in *. exists old. split; auto. rewrite O2. f_equal. now rewrite after_ins_cons.
        -- exists None. split; auto. rewrite O2. f_equal. unfold c in O1. unfold tempty in O1. rewrite walk_empty in O1. inversion O1; subst old.
           rewrite after_ins_cons. unfold after_ins. destruct (list_eq_dec keq p ks); auto. destruct p; reflexivity.
      * rewrite F2 by auto. destruct (walk_total (a :: p) t H) as [old Eo]. simpl in Eo. exists old. split; auto.
        rewrite Eo. unfold after_ins. destruct (list_eq_dec keq (a :: p) (k :: ks)); [congruence|].
        cbn [is_prefix]. destruct (keq a k); [congruence|]. destruct old; auto.
Qed.

Definition has_prefix (h : list (list K * D)) (p : list K) : Prop := exists k d, In (k, d) h /\ nonempty_prefix p k.

Lemma trie_run_ok : forall h t, twf t -> exists t', trie_run ltb dflt t h = Some t' /\ twf t'.
Proof.
  induction h as [|[k d] h IH]; intros t H; simpl; [eauto|]. unfold trie_insert. destruct k as [|a k].
  - apply IH; auto.
  - destruct (ins_ok (a :: k) d t H) as (t' & E & H'). rewrite E. auto.
Qed.

Lemma last_inserted_some : forall (h : list (list K * D)) p x, last_inserted keq h p (Some x) <> None.
Proof.
  induction h as [|[k1 d1] h IHh]; simpl; intros p x; [discriminate|]. destruct (list_eq_dec keq k1 p); apply IHh.
Qed.

(** generalised over the starting trie *)
Lemma find_history_gen : forall h t t' p old, twf t -> p <> [] -> trie_run ltb dflt t h = Some t' -> trie_walk ltb p t = Some old ->
  (forall d, last_inserted keq h p old = Some d -> (old <> None \/ exists d', In (p, d') h) -> trie_walk ltb p t' = Some (Some d)) /\
  (last_inserted keq h p old = None -> (exists k d, In (k, d) h /\ nonempty_prefix p k) -> trie_walk ltb p t' = Some (Some dflt)) /\
  (last_inserted keq h p old = None -> ~ (exists k d, In (k, d) h /\ nonempty_prefix p k) -> trie_walk ltb p t' = Some None).
Proof.
  induction h as [|[k d] h IH]; intros t t' p old H NE Hr Hw; simpl in Hr.
  - inversion Hr; subst t'. simpl. split; [|split].
    + intros d -> _. auto.
    + intros _ (k & d & [] & _).
    + intros -> _. auto.
  - destruct (trie_insert ltb dflt k d t) as [t1|] eqn:E1; [|discriminate].
    assert (X : twf t1 /\ trie_walk ltb p t1 = Some (after_ins k d p old) ).
    { unfold trie_insert in E1. destruct k as [|a k].
      - inversion E1; subst t1. split; auto. rewrite Hw. f_equal. unfold after_ins.
        destruct (list_eq_dec keq p []); [congruence|]. destruct p; [congruence|]. destruct old; auto.
      - destruct (ins_ok (a :: k) d t H) as (t2 & E2 & H2). rewrite E1 in E2. inversion E2; subst t2. split; auto.
        destruct (walk_ins (a :: k) d t t1 p H E1) as (o & O1 & O2). congruence. }
    destruct X as [H1 W1]. destruct (IH t1 t' p _ H1 NE Hr W1) as (A & B & C).
    simpl last_inserted. unfold after_ins in *.
    destruct (list_eq_dec keq p k) as [->|NK].
    + destruct (list_eq_dec keq k k); [|congruence]. split; [|split].
      * intros d1 L _. apply A; auto. left; discriminate.
      * intros L. now apply last_inserted_some in L.
      * intros L. now apply last_inserted_some in L.
    + destruct (list_eq_dec keq k p) as [->|_]; [congruence|].
      assert (LS : forall c c' d1, (exists d', In (p, d') h) -> last_inserted keq h p c = Some d1 -> last_inserted keq h p c' = Some d1).
      { clear. induction h as [|[k1 d1] h IHh]; simpl; intros c c' d2 [d' I] L; [destruct I|].
        destruct I as [I|I].
        - inversion I; subst. destruct (list_eq_dec keq p p); [auto|congruence].
        - destruct (list_eq_dec keq k1 p); eauto. }
      assert (LN : last_inserted keq h p None = None -> forall c, last_inserted keq h p c = c).
      { clear. induction h as [|[k1 d1] h IHh]; simpl; intros L c; auto.
        destruct (list_eq_dec keq k1 p); [|auto]. now apply last_inserted_some in L. }
      assert (PC : (if is_prefix p k then nonempty_prefix p k else ~ nonempty_prefix p k)).
      { destruct (is_prefix p k) eqn:EP; [split; auto; now apply is_prefix_ok|].
        intros [_ X]. apply is_prefix_ok in X. congruence. }
      destruct old as [x|].
      * split; [|split].
        -- intros d1 L [_|[d' [I|I]]]; [apply A; auto; left; discriminate|inversion I; congruence|apply A; auto; left; discriminate].
        -- intros L. now apply last_inserted_some in L.
        -- intros L. now apply last_inserted_some in L.
      * destruct (is_prefix p k) eqn:EP.
        -- split; [|split].
           ++ intros d1 L [X|[d' [I|I]]]; [congruence|inversion I; congruence|].
              apply A; [eapply LS; eauto|right; eauto].
           ++ intros L _. pose proof (LN L (Some dflt)) as L'. apply A; auto. left; discriminate.
           ++ intros L N. exfalso. apply N. exists k, d. simpl. auto.
        -- split; [|split].
           ++ intros d1 L [X|[d' [I|I]]]; [congruence|inversion I; congruence|]. apply A; auto. right; eauto.
           ++ intros L (k1 & d1 & [I|I] & P). { inversion I; subst. contradiction. } apply B; eauto.
           ++ intros L N. apply C; auto. intros (k1 & d1 & I & P). apply N. exists k1, d1. simpl. auto.
Qed.

Lemma last_inserted_In : forall (h : list (list K * D)) p d cur, last_inserted keq h p cur = Some d -> cur = Some d \/ exists d', In (p, d') h.
Proof.
  induction h as [|[k1 d1] h IH]; simpl; intros p d cur L; auto.
  apply IH in L. destruct L as [L|[d' I]]; [|eauto]. destruct (list_eq_dec keq k1 p) as [->|]; [right; eauto|auto].
Qed.

Theorem find_history : forall h t' p, p <> [] -> trie_run ltb dflt (tempty dflt) h = Some t' ->
  (forall d, last_inserted keq h p None = Some d -> trie_find ltb p t' = Some (Some d)) /\
  (last_inserted keq h p None = None -> (exists k d, In (k, d) h /\ nonempty_prefix p k) -> trie_find ltb p t' = Some (Some dflt)) /\
  (last_inserted keq h p None = None -> ~ (exists k d, In (k, d) h /\ nonempty_prefix p k) -> trie_find ltb p t' = Some None).
Proof.
  intros h t' p NE Hr.
  assert (Hw : trie_walk ltb p (tempty dflt) = Some None) by (unfold tempty; rewrite walk_empty; destruct p; congruence).
  destruct (find_history_gen h (tempty dflt) t' p None twf_empty NE Hr Hw) as (A & B & C).
  unfold trie_find. destruct p as [|a p]; [congruence|]. repeat split; auto.
  intros d L. apply A; auto. right. apply last_inserted_In in L. destruct L; [discriminate|auto].
Qed.

(** ** size *)
Fixpoint paths (t : tr) : list (list K) :=
  match t with
  | Node _ ch => (fix go (l : list (K * tr)) : list (list K) :=
                    match l with [] => [] | (k, c) :: r => ([k] :: map (cons k) (paths c)) ++ go r end) ch
  end.
Definition paths_ch (l : list (K * tr)) : list (list K) := flat_map (fun p => [fst p] :: map (cons (fst p)) (paths (snd p))) l.
Lemma paths_eq : forall d ch, paths (Node d ch) = paths_ch ch.
Proof. intros d ch. simpl. induction ch as [|[k c] ch IH]; simpl; auto. now rewrite IH. Qed.

Lemma trie_rect' : forall P : tr -> Prop, (forall d ch, (forall k c, In (k, c) ch -> P c) -> P (Node d ch)) -> forall t, P t.
Proof.
  intros P H. fix IH 1. intros [d ch]. apply H.
  induction ch as [|[k0 c0] ch IHc]; intros k c I; [destruct I|].
  pose proof (IH c0) as P0. clear IH. destruct I as [I|I].
  - injection I as _ <-. exact P0.
  - exact (IHc k c I).
Qed.

Lemma size_paths : forall t, trie_size t = S (length (paths t)).
Proof.
  induction t as [d ch IH] using trie_rect'. rewrite paths_eq. simpl. f_equal.
  induction ch as [|[k c] ch IHc]; [reflexivity|].
  simpl. rewrite app_length, map_length. rewrite (IH k c) by (simpl; auto). rewrite IHc by (intros; apply (IH k0); simpl; auto). lia.
Qed.

Lemma in_paths_ch : forall l p, In p (paths_ch l) <-> exists k c q, In (k, c) l /\ p = k :: q /\ (q = [] \/ In q (paths c)).
Proof.
  intros l p. unfold paths_ch. rewrite in_flat_map. split.
  - intros ([k c] & I & X). simpl in X. destruct X as [X|X].
    + exists k, c, []. auto.
    + apply in_map_iff in X. destruct X as (q & E & X). exists k, c, q. auto.
  - intros (k & c & q & I & -> & X). exists (k, c). split; auto. simpl. destruct X as [->|X]; auto.
    right. apply in_map_iff. eauto.
Qed.

Lemma paths_nonempty : forall t p, In p (paths t) -> p <> [].
Proof. intros [d ch] p. rewrite paths_eq, in_paths_ch. intros (k & c & q & _ & -> & _). discriminate. Qed.

Lemma paths_walk : forall p t, twf t -> p <> [] -> (In p (paths t) <-> exists d, trie_walk ltb p t = Some (Some d)).
Proof.
  induction p as [|a p IH]; intros t H NE; [congruence|]. destruct (twf_inv t H) as [S C]. destruct t as [d ch]. rewrite paths_eq, in_paths_ch. simpl in *.
  split.
  - intros (k & c & q & I & E & X). inversion E; subst k q. apply (findPtr_some ltb ST) in I as F; auto. rewrite F.
    destruct p as [|b p]; [simpl; eauto|]. destruct X as [X|X]; [discriminate|]. apply IH; eauto. discriminate.
  - intros [x W]. destruct (findPtr_total ltb ST ch a S) as [[c|] F]; rewrite F in W; [|discriminate].
    apply (findPtr_some ltb ST) in F; auto. exists a, c, p. split; auto. split; auto.
    destruct p as [|b p]; auto. right. apply IH; eauto. discriminate.
Qed.

Lemma nodup_app : forall A (a b : list A), NoDup a -> NoDup b -> (forall x, In x a -> In x b -> False) -> NoDup (a ++ b).
Proof.
  induction a as [|x a IH]; simpl; intros b Ha Hb H; auto. inversion Ha; subst. constructor.
  - rewrite in_app_iff. intros [X|X]; [auto|eapply H; eauto].
  - apply IH; auto. intros y Y1 Y2. eapply H; eauto.
Qed.

Lemma paths_nodup : forall t, twf t -> NoDup (paths t).
Proof.
  induction t as [d ch IH] using trie_rect'. intro H. destruct (twf_inv _ H) as [S C]. simpl in S, C. rewrite paths_eq.
  clear H. induction ch as [|[k c] ch IHc]; [constructor|].
  assert (S' := S). apply StronglySorted_inv in S'. destruct S' as [S' F]. rewrite Forall_forall in F.
  unfold paths_ch in *. simpl. 
  assert (Hk : forall q, In q (paths_ch ch) -> forall r, q <> k :: r).
  { intros q X r ->. apply in_paths_ch in X. destruct X as (k' & c' & q' & I & E & _). inversion E; subst.
    apply F in I. exact (irr ltb ST _ I). }
  constructor.
  - rewrite in_app_iff. intros [X|X].
    + apply in_map_iff in X. destruct X as (q & E & X). inversion E; subst. exact (paths_nonempty _ _ X eq_refl).
    + exact (Hk _ X [] eq_refl).
  - assert (ND1 : NoDup (map (cons k) (paths c))).
    { apply FinFun.Injective_map_NoDup; [intros x y E; now inversion E|]. apply (IH k c); [simpl; auto|apply (C k); simpl; auto]. }
    assert (ND2 : NoDup (paths_ch ch)).
    { apply IHc; auto; [intros k0 c0 I; apply (IH k0); simpl; auto|intros k0 c0 I; apply (C k0); simpl; auto]. }
    apply nodup_app; auto. intros q Hq1 Hq2. apply in_map_iff in Hq1. destruct Hq1 as (r & <- & _). exact (Hk _ Hq2 r eq_refl).
Qed.

Theorem trie_size_history : forall h t', trie_run ltb dflt (tempty dflt) h = Some t' ->
  exists ps, NoDup ps /\ (forall p, In p ps <-> exists k d, In (k, d) h /\ nonempty_prefix p k) /\ trie_size t' = S (length ps).
Proof.
  intros h t' Hr. destruct (trie_run_ok h (tempty dflt) twf_empty) as (t1 & E & H). rewrite Hr in E. inversion E; subst t1.
  exists (paths t'). split; [now apply paths_nodup|]. split; [|apply size_paths].
  intro p. split.
  - intro I. pose proof (paths_nonempty _ _ I) as NE. apply paths_walk in I; auto. destruct I as [x W].
    destruct (find_history h t' p NE Hr) as (A & B & C). unfold trie_find in *. destruct p as [|a p]; [congruence|].
    destruct (last_inserted keq h (a :: p) None) as [d|] eqn:L.
    + apply last_inserted_In in L as L'. destruct L' as [L'|[d' I]]; [discriminate|].
      exists (a :: p), d'. split; auto. split; auto. exists []. now rewrite app_nil_r.
    + destruct (existsb (fun e => is_prefix (a :: p) (fst e)) h) eqn:X.
      * apply existsb_exists in X. destruct X as ([k d] & I & P). exists k, d. split; auto. split; auto. now apply is_prefix_ok.
      * rewrite C in W; auto; [discriminate|]. intros (k & d & I & _ & P).
        assert (existsb (fun e => is_prefix (a :: p) (fst e)) h = true); [|congruence].
        apply existsb_exists. exists (k, d). split; auto. now apply is_prefix_ok.
  - intros X. assert (NE : p <> []) by (destruct X as (k & d & _ & N & _); auto).
    apply paths_walk; auto. destruct (find_history h t' p NE Hr) as (A & B & C). unfold trie_find in *. destruct p as [|a p]; [congruence|].
    destruct (last_inserted keq h (a :: p) None) as [d|] eqn:L; eauto.
Qed.

(** ** height: length of the longest inserted key *)
Lemma height_paths_aux : forall t i r, trie_height_aux t i r = Nat.max r (fold_right Nat.max i (map (fun p => i + length p) (paths t))).
Proof.
  induction t as [d ch IH] using trie_rect'. intros i r. rewrite paths_eq. simpl.
  assert (G : forall l r, (forall k c, In (k, c) l -> In (k, c) ch) ->
    (fix loop (l : list (K * tr)) (r : nat) : nat :=
       match l with [] => r | (_, c) :: l' => loop l' (trie_height_aux c (i + 1) r) end) l r
    = Nat.max r (fold_right Nat.max 0 (map (fun p => i + length p) (paths_ch l)))).
  { induction l as [|[k c] l IHl]; intros r0 Hin; [simpl; lia|].
    rewrite IHl by (intros; apply Hin; simpl; auto). rewrite (IH k c) by (apply Hin; simpl; auto).
    unfold paths_ch. simpl. rewrite map_app, fold_right_app, map_map. simpl.
    change (flat_map (fun p : K * tr => [fst p] :: map (cons (fst p)) (paths (snd p))) l) with (paths_ch l).
    generalize (fold_right Nat.max 0 (map (fun p : list K => i + length p) (paths_ch l))) as z. intro z.
    assert (Q : forall ls a b, fold_right Nat.max (Nat.max a b) (map (fun p : list K => i + 1 + length p) ls)
              = Nat.max b (fold_right Nat.max a (map (fun x : list K => i + S (length x)) ls))).
    { clear. induction ls; intros u v; simpl; [lia|]. rewrite IHls. lia. }
    specialize (Q (paths c) 0 (i + 1)). simpl in Q. rewrite Q.
    assert (Q2 : forall ls z, fold_right Nat.max z (map (fun x : list K => i + S (length x)) ls)
              = Nat.max z (fold_right Nat.max 0 (map (fun x : list K => i + S (length x)) ls))).
    { clear. induction ls; intros v; simpl; [lia|]. rewrite IHls. lia. }
    rewrite (Q2 (paths c) z). lia. }
  rewrite G by auto.
  assert (Q3 : forall (ls : list nat) z, fold_right Nat.max z ls = Nat.max z (fold_right Nat.max 0 ls)).
  { clear. induction ls; intros v; simpl; [lia|]. rewrite IHls. lia. }
  rewrite (Q3 _ i). destruct (Nat.ltb_spec r i); lia.
Qed.

Theorem trie_height_history : forall h t', trie_run ltb dflt (tempty dflt) h = Some t' ->
  trie_height t' = fold_right Nat.max 0 (map (fun e => length (fst e)) h).
Proof.
  intros h t' Hr. unfold trie_height. rewrite height_paths_aux. rewrite Nat.max_0_l.
  destruct (trie_run_ok h (tempty dflt) twf_empty) as (t1 & E & H). rewrite Hr in E. inversion E; subst t1.
  assert (MX : forall l n, fold_right Nat.max 0 l <= n <-> forall x, In x l -> x <= n).
  { clear. induction l; intros n; simpl; [split; [intros _ x []|lia]|].
    rewrite Nat.max_lub_iff, IHl. split.
    - intros [A B] x [->|X]; auto.
    - intros A; split; auto. }
  assert (PS : forall p, In p (paths t') <-> exists k d, In (k, d) h /\ nonempty_prefix p k).
  { intro p. split.
    - intro I. pose proof (paths_nonempty _ _ I) as NE. apply paths_walk in I; auto. destruct I as [x W].
      destruct (find_history h t' p NE Hr) as (A & B & C). unfold trie_find in *. destruct p as [|a p]; [congruence|].
      destruct (last_inserted keq h (a :: p) None) as [d|] eqn:L.
      + apply last_inserted_In in L as L'. destruct L' as [L'|[d' I]]; [discriminate|].
        exists (a :: p), d'. split; auto. split; auto. exists []. now rewrite app_nil_r.
      + destruct (existsb (fun e => is_prefix (a :: p) (fst e)) h) eqn:X.
        * apply existsb_exists in X. destruct X as ([k d] & I & P). exists k, d. split; auto. split; auto. now apply is_prefix_ok.
        * rewrite C in W; auto; [discriminate|]. intros (k & d & I & _ & P).
          assert (existsb (fun e => is_prefix (a :: p) (fst e)) h = true); [|congruence].
          apply existsb_exists. exists (k, d). split; auto. now apply is_prefix_ok.
    - intros X. assert (NE : p <> []) by (destruct X as (k & d & _ & N & _); auto).
      apply paths_walk; auto. destruct (find_history h t' p NE Hr) as (A & B & C). unfold trie_find in *. destruct p as [|a p]; [congruence|].
      destruct (last_inserted keq h (a :: p) None) as [d|] eqn:L; eauto. }
  apply Nat.le_antisymm.
  - apply MX. intros x I. apply in_map_iff in I. destruct I as (p & <- & I). apply PS in I. destruct I as (k & d & I & _ & r & ->).
    simpl. apply Nat.le_trans with (length (p ++ r)); [rewrite app_length; lia|].
    apply (proj1 (MX _ _) (le_n _)). apply in_map_iff. exists (p ++ r, d). auto.
  - apply MX. intros x I. apply in_map_iff in I. destruct I as ([k d] & <- & I). simpl. destruct k as [|a k]; [simpl; lia|].
    apply (proj1 (MX _ _) (le_n _)). apply in_map_iff. exists (a :: k). split; auto. apply PS. exists (a :: k), d. split; auto.
    split; [discriminate|]. exists []. now rewrite app_nil_r.
Qed.
End TRIEP.

(** ** NbestTableNode *)
Section NBP.
Context {D : Type}.
Open Scope Z_scope.
Notation nb := (list (Z * D)).

Lemma nb_insert_in : forall s d (l : nb) p, In p (nb_insert s d l) <-> p = (s, d) \/ In p l.
Proof.
  induction l as [|[s' d'] l IH]; intros p; simpl; [intuition congruence|].
  destruct (s' <? s); simpl; [intuition congruence|]. rewrite IH. intuition.
Qed.
Lemma nb_insert_desc : forall s d (l : nb), descending l -> descending (nb_insert s d l).
Proof.
  unfold descending. induction l as [|[s' d'] l IH]; intro H; simpl; [repeat constructor|].
  apply StronglySorted_inv in H as H'. destruct H' as [H1 F]. destruct (Z.ltb_spec s' s).
  - constructor; auto. constructor; [simpl; lia|]. rewrite Forall_forall in *. intros q Q. apply F in Q. simpl in *. lia.
  - constructor; auto. rewrite Forall_forall in *. intros q Q. apply nb_insert_in in Q. destruct Q as [->|Q]; simpl; auto.
Qed.
Lemma nb_insert_perm : forall s d (l : nb), Permutation (nb_insert s d l) (l ++ [(s, d)]).
Proof.
  induction l as [|[s' d'] l IH]; simpl; auto. destruct (s' <? s).
  - change ((s', d') :: l ++ [(s, d)]) with (((s', d') :: l) ++ [(s, d)]). apply Permutation_cons_append.
  - now constructor.
Qed.
Lemma nb_insert_stable : forall s d (l : nb) z, descending l -> with_score z (nb_insert s d l) = with_score z (l ++ [(s, d)]).
Proof.
  intros s d l z. unfold with_score, descending. induction l as [|[s' d'] l IH]; intro H; simpl; auto.
  apply StronglySorted_inv in H. destruct H as [H F]. destruct (Z.ltb_spec s' s) as [Lt|Ge].
  - simpl. rewrite filter_app. simpl. destruct (Z.eqb_spec s z) as [->|NE]; simpl.
    + destruct (Z.eqb_spec s' z); [lia|].
      assert (E : filter (fun p => fst p =? z) l = []).
      { rewrite Forall_forall in F. clear - F Lt. induction l as [|[x y] l IH]; simpl; auto.
        pose proof (F (x, y) (or_introl eq_refl)). simpl in *. destruct (Z.eqb_spec x z); [lia|]. apply IH. intros; apply F; simpl; auto. }
      now rewrite E.
    + now rewrite app_nil_r.
  - simpl. rewrite IH by auto. destruct (s' =? z); auto.
Qed.
Lemma rev_prune_app : forall th (l : nb), exists a, rev l = a ++ rev_prune th (rev l) /\ Forall (fun p => fst p < th) a /\
   match rev_prune th (rev l) with [] => True | p :: _ => th <= fst p end.
Proof.
  intros th l. generalize (rev l) as m. induction m as [|p m IH]; simpl; [exists []; auto|].
  destruct (Z.ltb_spec (fst p) th).
  - destruct IH as (a & E & F & M). exists (p :: a). simpl. split; [congruence|auto].
  - exists []. simpl. auto.
Qed.
Lemma nb_prune_filter : forall th (l : nb), descending l -> nb_prune th l = filter (fun p => negb (fst p <? th)) l.
Proof.
  intros th l H. unfold nb_prune. destruct (rev_prune_app th l) as (a & E & F & M).
  assert (El : l = rev (rev_prune th (rev l)) ++ rev a) by (rewrite <- rev_app_distr, <- E; now rewrite rev_involutive).
  set (b := rev_prune th (rev l)) in *. clearbody b. rewrite El, filter_app.
  assert (Fa : filter (fun p => negb (fst p <? th)) (rev a) = []).
  { assert (F' : Forall (fun p : Z * D => fst p < th) (rev a)) by (apply Forall_rev; auto).
    clear - F'. induction F'; simpl; auto. destruct (Z.ltb_spec (fst x) th); [auto|lia]. }
  rewrite Fa, app_nil_r. clear Fa.
  assert (Hb : forall q, In q (rev b) -> th <= fst q).
  { destruct b as [|p b]; [intros q []|]. intros q Q. rewrite El in H. simpl in *.
    apply in_app_iff in Q. destruct Q as [Q|[<-|[]]]; auto.
    unfold descending in H. clear - H Q M.
    assert (K : forall (x y : nb), StronglySorted (fun p q => fst q <= fst p) (x ++ y) -> forall u v, In u x -> In v y -> fst v <= fst u).
    { induction x; simpl; intros y S u v Hu Hv; [destruct Hu|]. apply StronglySorted_inv in S. destruct S as [S F]. rewrite Forall_forall in F.
      destruct Hu as [->|Hu]; [apply F; apply in_app_iff; auto|eauto]. }
    rewrite <- app_assoc in H. specialize (K _ _ H q p Q (or_introl eq_refl)). lia. }
  clear - Hb. induction (rev b) as [|p m IH]; simpl; auto.
  destruct (Z.ltb_spec (fst p) th); [pose proof (Hb p (or_introl eq_refl)); lia|]. simpl. f_equal. apply IH. intros; apply Hb; simpl; auto.
Qed.
Lemma desc_filter : forall f (l : nb), descending l -> descending (filter f l).
Proof.
  intros f l H. unfold descending in *. induction H; simpl; [constructor|]. destruct (f a); auto. constructor; auto.
  rewrite Forall_forall in *. intros q Q. apply filter_In in Q. apply H0. tauto.
Qed.
Lemma desc_removelast : forall l : nb, descending l -> descending (removelast l).
Proof.
  unfold descending. intros l H. induction H as [|a l H IH F]; [constructor|]. simpl. destruct l as [|b l]; [constructor|].
  constructor; auto. rewrite Forall_forall in *. intros q Q. apply F.
  clear - Q. revert Q. generalize (b :: l). intros m. induction m as [|x m IHm]; simpl; auto. destruct m; [intros []|]. intros [->|Q]; auto.
Qed.
Theorem nb_reachable_desc : forall h (l0 l : nb), descending l0 -> nb_run l0 h = Some l -> descending l.
Proof.
  induction h as [|o h IH]; intros l0 l H R; simpl in R; [inversion R; subst; auto|].
  destruct (nb_step l0 o) as [l1|] eqn:E; [|discriminate]. apply (IH l1); auto. destruct o; simpl in E.
  - inversion E; subst. now apply nb_insert_desc.
  - inversion E; subst. rewrite nb_prune_filter by auto. now apply desc_filter.
  - unfold nb_removeLast in E. destruct l0; [discriminate|]. inversion E; subst. apply (desc_removelast (p :: l0)); auto.
  - inversion E; subst. constructor.
Qed.
(** a node filled by insertions only is the stable descending sort of its history *)
Definition inserts (h : list (Z * D)) : list nb_op := map (fun p => NbInsert (fst p) (snd p)) h.
Theorem nb_inserts_sorted_stable : forall (h l : nb), nb_run [] (inserts h) = Some l ->
  descending l /\ Permutation l h /\ forall s, with_score s l = with_score s h.
Proof.
  intros h l. assert (G : forall (h l0 l : nb), descending l0 -> nb_run l0 (inserts h) = Some l ->
     descending l /\ Permutation l (l0 ++ h) /\ forall s, with_score s l = with_score s (l0 ++ h)).
  { clear. induction h as [|[s d] h IH]; intros l0 l H R; simpl in R.
    - inversion R; subst. rewrite app_nil_r. auto.
    - destruct (IH _ _ (nb_insert_desc s d l0 H) R) as (A & B & C). split; auto. split.
      + rewrite B. rewrite (nb_insert_perm s d l0). rewrite <- app_assoc. reflexivity.
      + intro z. rewrite C. unfold with_score in *. rewrite !filter_app. simpl. pose proof (nb_insert_stable s d l0 z H) as E. unfold with_score in E.
        rewrite E. rewrite filter_app. simpl. rewrite <- app_assoc. destruct (s =? z); reflexivity. }
  intro R. apply (G h [] l); auto. constructor.
Qed.
Theorem nb_best_max : forall h (l : nb) s d, nb_run [] h = Some l -> nb_best l = Some (s, d) ->
  In (s, d) l /\ forall s' d', In (s', d') l -> s' <= s.
Proof.
  intros h l s d R B. pose proof (nb_reachable_desc h [] l (SSorted_nil _) R) as H. destruct l as [|p l]; simpl in B; [discriminate|].
  inversion B; subst p. split; [simpl; auto|]. intros s' d' [X|X]; [inversion X; lia|].
  apply StronglySorted_inv in H. destruct H as [_ F]. rewrite Forall_forall in F. exact (F _ X).
Qed.
Theorem nb_prune_law : forall h (l : nb) th, nb_run [] h = Some l -> nb_prune th l = filter (fun p => negb (fst p <? th)) l.
Proof. intros h l th R. apply nb_prune_filter. apply (nb_reachable_desc h []); auto. constructor. Qed.
End NBP.
Lemma trie_run_total : forall K D (ltb : K -> K -> bool), strict_total ltb -> forall (dflt : D) (h : list (list K * D)),
  exists t, trie_run ltb dflt (tempty dflt) h = Some t.
Proof. intros K D ltb ST dflt h. destruct (trie_run_ok ltb ST dflt h (tempty dflt) (twf_empty ltb dflt)) as (t & E & _). eauto. Qed.
Lemma nb_prune_step : forall D (h : list nb_op) (l : list (Z * D)) th, nb_run [] h = Some l ->
  nb_step l (NbPrune th) = Some (filter (fun p => negb (fst p <? th)%Z) l).
Proof. intros. simpl. f_equal. eapply nb_prune_law; eauto. Qed.
