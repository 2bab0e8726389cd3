From Coq Require Import ZArith Arith List Bool Lia Sorted Permutation.
From Verif Require Import AMap StackSpec StackModel.
Import ListNotations.
Open Scope nat_scope.

Definition nge (a b : node) : Prop := (nscore b <= nscore a)%Z.
Definition nsorted (l : list node) : Prop := StronglySorted nge l.

(** ** list facts *)
Lemma removelast_firstn : forall A (l : list A), removelast l = firstn (length l - 1) l.
Proof. intros. rewrite removelast_firstn_len. f_equal. lia. Qed.
Lemma trim_iter : forall j (l : list node), Nat.iter j st_removeLast l = firstn (length l - j) l.
Proof.
  induction j as [|j IH]; intro l; [simpl; now rewrite Nat.sub_0_r, firstn_all|].
  change (Nat.iter (S j) st_removeLast l) with (st_removeLast (Nat.iter j st_removeLast l)). rewrite IH. unfold st_removeLast.
  rewrite removelast_firstn, firstn_length, firstn_firstn. f_equal. lia.
Qed.
Lemma trim_firstn : forall max l, st_trim max l = firstn max l.
Proof.
  intros. unfold st_trim. rewrite trim_iter. destruct (Nat.le_gt_cases (length l) max).
  - rewrite !firstn_all2; auto; lia.
  - f_equal. lia.
Qed.
Lemma SS_app : forall A (R : A -> A -> Prop) l1 l2, StronglySorted R (l1 ++ l2) <->
  StronglySorted R l1 /\ StronglySorted R l2 /\ forall a b, In a l1 -> In b l2 -> R a b.
Proof.
  induction l1 as [|x l1 IH]; intro l2; simpl.
  - split; [intro; split; [constructor|split; [auto|tauto]]|tauto].
  - split.
    + intro H. inversion H; subst. apply IH in H2. destruct H2 as (A1 & A2 & A3). rewrite Forall_app in H3. destruct H3 as (B1 & B2).
      split; [constructor; auto|]. split; auto. intros a b [E|I] J; [subst; rewrite Forall_forall in B2; auto|auto].
    + intros (H1 & H2 & H3). inversion H1; subst. constructor.
      * apply IH. split; [auto|]. split; [auto|]. intros; apply H3; auto.
      * apply Forall_app. split; auto. apply Forall_forall. intros; apply H3; auto.
Qed.
Lemma insert_perm : forall n l, Permutation (ms_insert n l) (n :: l).
Proof.
  induction l as [|m l IH]; simpl; auto. destruct (nscore n <=? nscore m)%Z; auto.
  eapply perm_trans; [apply perm_skip; exact IH|apply perm_swap].
Qed.
Lemma insert_in : forall n l x, In x (ms_insert n l) <-> x = n \/ In x l.
Proof.
  intros. split; intro H.
  - apply (Permutation_in _ (insert_perm n l)) in H. simpl in H. intuition.
  - apply (Permutation_in _ (Permutation_sym (insert_perm n l))). simpl. intuition.
Qed.
Lemma insert_length : forall n l, length (ms_insert n l) = S (length l).
Proof. intros. apply (Permutation_length (insert_perm n l)). Qed.
Lemma insert_sorted : forall n l, nsorted l -> nsorted (ms_insert n l).
Proof.
  unfold nsorted. induction l as [|m l IH]; intro H; simpl; [repeat constructor|]. inversion H; subst.
  destruct (Z.leb_spec (nscore n) (nscore m)).
  - constructor; auto. apply Forall_forall. intros x I. apply insert_in in I. destruct I as [->|I]; [exact H0|]. rewrite Forall_forall in H3. auto.
  - constructor; auto. constructor; [unfold nge; lia|]. eapply Forall_impl; [|exact H3]. unfold nge. intros; lia.
Qed.
Lemma insert_last : forall n l, (forall m, In m l -> nscore n <= nscore m)%Z -> ms_insert n l = l ++ [n].
Proof.
  induction l as [|m l IH]; intro H; simpl; auto. destruct (Z.leb_spec (nscore n) (nscore m)).
  - f_equal. apply IH. intros; apply H; simpl; auto.
  - specialize (H m (or_introl eq_refl)). lia.
Qed.
Lemma removelast_last : forall A (l : list A) d, l <> [] -> l = removelast l ++ [last l d].
Proof. intros. now apply app_removelast_last. Qed.
Lemma ins_le : forall n m l, (nscore n <= nscore m)%Z -> ms_insert n (m :: l) = m :: ms_insert n l.
Proof. intros. simpl. destruct (Z.leb_spec (nscore n) (nscore m)); [reflexivity|lia]. Qed.
Lemma ins_gt : forall n m l, (nscore m < nscore n)%Z -> ms_insert n (m :: l) = n :: m :: l.
Proof. intros. simpl. destruct (Z.leb_spec (nscore n) (nscore m)); [lia|reflexivity]. Qed.
Lemma removelast_cons : forall A (x : A) l, l <> [] -> removelast (x :: l) = x :: removelast l.
Proof. intros. destruct l; [congruence|reflexivity]. Qed.
Lemma insert_removelast : forall n l d, l <> [] -> nsorted l -> (nscore (last l d) < nscore n)%Z ->
  removelast (ms_insert n l) = ms_insert n (removelast l).
Proof.
  induction l as [|m l IH]; intros d NE S H; [congruence|]. inversion S; subst.
  destruct (Z.le_gt_cases (nscore n) (nscore m)) as [L|L].
  - destruct l as [|m2 l]; [simpl in H; lia|]. rewrite (ins_le n m (m2 :: l)) by auto. rewrite (removelast_cons _ m (m2 :: l)) by discriminate. rewrite (ins_le n m (removelast (m2 :: l))) by auto.
    rewrite removelast_cons. { rewrite (IH d); [reflexivity|discriminate|auto|exact H]. }
    intro E. apply (f_equal (@length _)) in E. rewrite insert_length in E. discriminate.
  - rewrite ins_gt by auto. destruct l as [|m2 l]; [reflexivity|]. rewrite (removelast_cons _ m (m2 :: l)) by discriminate. rewrite ins_gt by auto. reflexivity.
Qed.
Lemma sorted_last_min : forall l d x, nsorted l -> In x l -> (nscore (last l d) <= nscore x)%Z.
Proof.
  intros l d x H I. destruct l as [|y r]; [destruct I|]. assert (NE : y :: r <> []) by discriminate. remember (y :: r) as l eqn:E.
  rewrite (removelast_last _ l d NE) in H, I. unfold nsorted in H. apply SS_app in H. destruct H as (_ & _ & H).
  apply in_app_iff in I. destruct I as [I|[<-|[]]]; [|lia]. apply (H x (last l d) I). simpl. auto.
Qed.

(** ** pushIter keeps the best [max] *)
Lemma push_spec : forall max n l, max <> 0 -> nsorted l -> length l <= max -> ~ In n l ->
  snd (st_pushIter max n l) = firstn max (ms_insert n l) /\
  (fst (st_pushIter max n l) = true <-> In n (snd (st_pushIter max n l))).
Proof.
  intros max n l M S L F. unfold st_pushIter. destruct (Nat.eqb_spec max 0); [lia|]. rewrite trim_firstn, (firstn_all2 l) by auto.
  assert (T : forall l', length l' <= Datatypes.S max -> (if max <? length l' then st_removeLast l' else l') = firstn max l').
  { intros l' H. destruct (Nat.ltb_spec max (length l')).
    - unfold st_removeLast. rewrite removelast_firstn. f_equal. lia.
    - now rewrite firstn_all2. }
  destruct l as [|x r].
  - cbn [fst snd]. rewrite T by (simpl; lia). split; [reflexivity|]. split; auto. intros _. destruct max; [lia|]. simpl. auto.
  - remember (x :: r) as l eqn:E. assert (NE : l <> []) by (subst; discriminate).
    destruct (Nat.eqb_spec (length l) max) as [Q|Q]; cbn [andb].
    + destruct (Z.leb_spec (nscore n) (nscore (last l x))) as [H|H]; cbn [fst snd].
      * split.
        -- rewrite insert_last. { rewrite firstn_app, Q, Nat.sub_diag, firstn_all2 by lia. simpl. now rewrite app_nil_r. }
           intros m I. pose proof (sorted_last_min l x m S I). lia.
        -- split; [discriminate|]. intro I. contradiction.
      * rewrite T by (rewrite insert_length; lia). split; [reflexivity|]. split; auto. intros _.
        rewrite <- T by (rewrite insert_length; lia). destruct (Nat.ltb_spec max (length (ms_insert n l))) as [|C]; [|rewrite insert_length in C; lia].
        unfold st_removeLast. rewrite (insert_removelast n l x) by auto. apply insert_in. auto.
    + cbn [fst snd]. rewrite T by (rewrite insert_length; lia). split; [reflexivity|]. split; auto. intros _.
      rewrite firstn_all2 by (rewrite insert_length; lia). apply insert_in. auto.
Qed.
(** the three outcomes *)
Lemma push_cases : forall max n l, max <> 0 -> nsorted l -> length l <= max ->
  (exists d, length l = max /\ l <> [] /\ (nscore n <= nscore (last l d))%Z /\ st_pushIter max n l = (false, l)) \/
  (length l < max /\ st_pushIter max n l = (true, ms_insert n l)) \/
  (exists d, length l = max /\ l <> [] /\ (nscore (last l d) < nscore n)%Z /\ st_pushIter max n l = (true, ms_insert n (removelast l))).
Proof.
  intros max n l M S L. unfold st_pushIter. destruct (Nat.eqb_spec max 0); [lia|]. rewrite trim_firstn, (firstn_all2 l) by auto.
  destruct l as [|x r].
  - right. left. split; [simpl; lia|]. cbn [ms_insert length]. destruct (Nat.ltb_spec max 1); [lia|]. reflexivity.
  - remember (x :: r) as l eqn:E. assert (NE : l <> []) by (subst; discriminate).
    destruct (Nat.eqb_spec (length l) max) as [Q|Q]; cbn [andb].
    + destruct (Z.leb_spec (nscore n) (nscore (last l x))) as [H|H].
      * left. exists x. auto.
      * right. right. exists x. split; [auto|]. split; [auto|]. split; [auto|]. rewrite insert_length. destruct (Nat.ltb_spec max (Datatypes.S (length l))); [|lia].
        unfold st_removeLast. now rewrite (insert_removelast n l x).
    + right. left. split; [lia|]. rewrite insert_length. destruct (Nat.ltb_spec max (Datatypes.S (length l))); [lia|]. reflexivity.
Qed.

(** ** C33: sessions *)
Definition npre (a b : node) : Prop := (nscore b < nscore a)%Z \/ (nscore b = nscore a /\ fst a < fst b).
Fixpoint all_sorted (id : nat) (hs : list hyp) (L : list node) : list node :=
  match hs with [] => L | h :: r => all_sorted (S id) r (ms_insert (id, h) L) end.
Lemma npre_insert : forall n L, StronglySorted npre L -> (forall m, In m L -> fst m < fst n) -> StronglySorted npre (ms_insert n L).
Proof.
  induction L as [|m L IH]; intros S F; simpl; [repeat constructor|]. inversion S; subst.
  destruct (Z.leb_spec (nscore n) (nscore m)).
  - constructor; [apply IH; auto; intros; apply F; simpl; auto|]. apply Forall_forall. intros x I. apply insert_in in I. destruct I as [->|I].
    + specialize (F m (or_introl eq_refl)). unfold npre. lia.
    + rewrite Forall_forall in H2. auto.
  - constructor; auto. constructor; [left; lia|]. eapply Forall_impl; [|exact H2]. unfold npre. intros; lia.
Qed.
Lemma npre_nsorted : forall L, StronglySorted npre L -> nsorted L.
Proof. induction 1; constructor; auto. eapply Forall_impl; [|exact H0]. unfold npre, nge. intros; lia. Qed.
Lemma firstn_insert : forall n L k, firstn k (ms_insert n L) = firstn k (ms_insert n (firstn k L)).
Proof.
  intros n. induction L as [|m L IH]; intros [|k]; auto. cbn [ms_insert firstn]. destruct (nscore n <=? nscore m)%Z eqn:E; cbn [firstn].
  - f_equal. apply IH.
  - f_equal. destruct k as [|k]; auto. rewrite (firstn_cons k m L), (firstn_cons k m). f_equal. rewrite firstn_firstn. f_equal. lia.
Qed.
Lemma firstn_sub : forall A k (l : list A) x, In x (firstn k l) -> In x l.
Proof. intros. rewrite <- (firstn_skipn k l). apply in_or_app. auto. Qed.
Lemma SS_firstn : forall A (R : A -> A -> Prop) k l, StronglySorted R l -> StronglySorted R (firstn k l).
Proof. intros. rewrite <- (firstn_skipn k l) in H. now apply SS_app in H. Qed.
Lemma run_sorted : forall k hs id L, k <> 0 -> StronglySorted npre L -> (forall m, In m L -> fst m < id) ->
  snd (st_run k id hs (firstn k L)) = firstn k (all_sorted id hs L) /\
  StronglySorted npre (all_sorted id hs L) /\ (forall m, In m (all_sorted id hs L) -> fst m < id + length hs) /\
  Permutation (all_sorted id hs L) (combine (seq id (length hs)) hs ++ L).
Proof.
  intros k. induction hs as [|h hs IH]; intros id L K S F.
  - simpl. rewrite Nat.add_0_r. auto.
  - cbn [st_run all_sorted]. destruct (push_spec k (id, h) (firstn k L)) as (E & _); auto.
    { apply npre_nsorted, SS_firstn; auto. }
    { rewrite firstn_length. lia. }
    { intro I. apply firstn_sub in I. apply F in I. simpl in I. lia. }
    destruct (st_pushIter k (id, h) (firstn k L)) as [b l1]. cbn [snd] in E. subst l1. rewrite <- firstn_insert.
    assert (F2 : forall m, In m (ms_insert (id, h) L) -> fst m < Datatypes.S id).
    { intros m I. apply insert_in in I. destruct I as [->|I]; [simpl; lia|]. apply F in I. lia. }
    destruct (IH (Datatypes.S id) (ms_insert (id, h) L) K) as (A & B & C & D); auto.
    { apply npre_insert; auto. }
    destruct (st_run k (Datatypes.S id) hs (firstn k (ms_insert (id, h) L))) as [bs l2]. cbn [snd] in *.
    split; [exact A|]. split; [exact B|]. split; [intros m I; apply C in I; simpl; lia|]. eapply perm_trans; [exact D|].
    cbn [length seq combine app]. eapply perm_trans; [apply Permutation_app_head; apply insert_perm|]. apply Permutation_sym, Permutation_middle.
Qed.
Lemma run0 : forall k hs, k <> 0 -> snd (st_run k 0 hs []) = firstn k (all_sorted 0 hs []) /\
  StronglySorted npre (all_sorted 0 hs []) /\ (forall m, In m (all_sorted 0 hs []) -> fst m < length hs) /\
  Permutation (all_sorted 0 hs []) (combine (seq 0 (length hs)) hs).
Proof.
  intros k hs K. destruct (run_sorted k hs 0 [] K ltac:(constructor) ltac:(simpl; tauto)) as (A & B & C & D).
  destruct k; [lia|]. rewrite app_nil_r in D. auto.
Qed.
Lemma map_snd_combine : forall A (l : list A) s, map snd (combine (seq s (length l)) l) = l.
Proof. induction l; intro s; simpl; auto. now rewrite IHl. Qed.
Lemma SS_map : forall L, nsorted L -> non_increasing (map snd L).
Proof. induction 1; simpl; constructor; auto. rewrite Forall_map. exact H0. Qed.
Lemma keeps_best : forall k hs, k <> 0 -> let l := snd (st_run k 0 hs []) in
  non_increasing (map snd l) /\ best_k k hs (map snd l).
Proof.
  intros k hs K l. subst l. destruct (run0 k hs K) as (A & B & C & D). rewrite A. set (L := all_sorted 0 hs []) in *. split.
  - apply SS_map, npre_nsorted, SS_firstn; auto.
  - exists (map snd (skipn k L)). rewrite <- map_app, firstn_skipn. split; [|split].
    + apply Permutation_map with (f := snd) in D. rewrite map_snd_combine in D. now apply Permutation_sym.
    + rewrite map_length, firstn_length. apply Permutation_length in D. pose proof (combine_length (seq 0 (length hs)) hs) as CL. rewrite seq_length in CL. unfold node in *. lia.
    + intros a b Ia Ib. apply in_map_iff in Ia. apply in_map_iff in Ib. destruct Ia as (x & <- & Ix). destruct Ib as (y & <- & Iy).
      assert (S : nsorted L) by (now apply npre_nsorted). unfold nsorted in S. rewrite <- (firstn_skipn k L) in S. apply SS_app in S. destruct S as (_ & _ & S).
      exact (S x y Ix Iy).
Qed.
Lemma ties_earlier : forall k hs i j a b, k <> 0 -> let l := snd (st_run k 0 hs []) in
  In (i, a) l -> nth_error hs j = Some b -> ~ In (j, b) l -> (hscore b < hscore a)%Z \/ (hscore b = hscore a /\ i < j).
Proof.
  intros k hs i j a b K l. subst l. destruct (run0 k hs K) as (A & B & C & D). rewrite A. set (L := all_sorted 0 hs []) in *. intros Ia Eb NI.
  assert (Ib : In (j, b) L).
  { apply (Permutation_in _ (Permutation_sym D)). assert (J : j < length hs) by (apply nth_error_Some; congruence).
    replace (j, b) with (nth j (combine (seq 0 (length hs)) hs) (0, b)).
    - apply nth_In. rewrite combine_length, seq_length. lia.
    - rewrite combine_nth by (now rewrite seq_length). rewrite seq_nth by auto. apply nth_error_nth with (d := b) in Eb. simpl. now rewrite Eb. }
  rewrite <- (firstn_skipn k L) in Ib, B. apply in_app_iff in Ib. destruct Ib as [Ib|Ib]; [contradiction|].
  apply SS_app in B. destruct B as (_ & _ & B). exact (B (i, a) (j, b) Ia Ib).
Qed.
Lemma push_flag : forall k hs h, k <> 0 -> let l := snd (st_run k 0 hs []) in
  fst (st_pushIter k (length hs, h) l) = true <-> In (length hs, h) (snd (st_pushIter k (length hs, h) l)).
Proof.
  intros k hs h K l. subst l. destruct (run0 k hs K) as (A & B & C & D). rewrite A. apply push_spec; auto.
  - apply npre_nsorted, SS_firstn; auto.
  - rewrite firstn_length. lia.
  - intro I. apply firstn_sub, C in I. simpl in I. lia.
Qed.
Lemma hist_inv : forall max ops id l, max <> 0 -> nsorted l -> length l <= max -> (forall n, In n l -> fst n < id) ->
  let l' := st_hist max id ops l in nsorted l' /\ length l' <= max /\ exists id', forall n, In n l' -> fst n < id'.
Proof.
  intros max. induction ops as [|[h| |] ops IH]; intros id l M S L F; cbn [st_hist].
  - split; [auto|split; [auto|exists id; auto]].
  - destruct (push_spec max (id, h) l) as (E & _); auto. { intro I. apply F in I. simpl in I. lia. }
    apply IH; auto; rewrite E.
    + apply SS_firstn, insert_sorted; auto.
    + rewrite firstn_length. lia.
    + intros n I. apply firstn_sub, insert_in in I. destruct I as [->|I]; [simpl; lia|]. apply F in I. lia.
  - destruct l as [|n l]; cbn [st_pop]; [apply IH; auto|]. apply IH; auto.
    + now inversion S.
    + simpl in L. lia.
    + intros m I. apply F. simpl. auto.
  - apply IH; auto; unfold st_removeLast; rewrite removelast_firstn.
    + now apply SS_firstn.
    + rewrite firstn_length. lia.
    + intros m I. apply firstn_sub in I. auto.
Qed.
Lemma top_last : forall max ops n, max <> 0 -> let l := st_hist max 0 ops [] in In n l ->
  exists t b, st_top l = Some t /\ st_last l = Some b /\ (nscore b <= nscore n <= nscore t)%Z.
Proof.
  intros max ops n M l I. subst l. destruct (hist_inv max ops 0 [] M) as (S & _); [constructor|simpl; lia|simpl; tauto|].
  destruct (st_hist max 0 ops []) as [|t l] eqn:E; [destruct I|]. exists t, (last (t :: l) t). split; [reflexivity|]. split; [reflexivity|]. split.
  - apply sorted_last_min; auto.
  - inversion S; subst. destruct I as [->|I]; [lia|]. rewrite Forall_forall in H2. exact (H2 n I).
Qed.
Lemma hist_push : forall max ops h, max <> 0 -> let l := st_hist max 0 ops [] in
  non_increasing (map snd l) /\ length l <= max /\
  exists id, (fst (st_pushIter max (id, h) l) = true <-> In (id, h) (snd (st_pushIter max (id, h) l))) /\ ~ In (id, h) l /\
             best_k max (h :: map snd l) (map snd (snd (st_pushIter max (id, h) l))).
Proof.
  intros max ops h M l. subst l. destruct (hist_inv max ops 0 [] M) as (S & L & id & F); [constructor|simpl; lia|simpl; tauto|].
  remember (st_hist max 0 ops []) as l eqn:E. clear E. split; [now apply SS_map|]. split; [auto|]. exists id.
  assert (NI : ~ In (id, h) l) by (intro I; apply F in I; simpl in I; lia).
  destruct (push_spec max (id, h) l M S L NI) as (A & B). split; [exact B|]. split; [exact NI|]. rewrite A.
  assert (P := insert_perm (id, h) l). assert (S2 := insert_sorted (id, h) l S). remember (ms_insert (id, h) l) as L2.
  exists (map snd (skipn max L2)). rewrite <- map_app, firstn_skipn. split; [|split].
  - apply Permutation_map with (f := snd) in P. now apply Permutation_sym.
  - rewrite map_length, firstn_length. apply Permutation_length in P. cbn [length] in *. rewrite map_length. unfold node in *. lia.
  - intros a b Ia Ib. apply in_map_iff in Ia. apply in_map_iff in Ib. destruct Ia as (x & <- & Ix). destruct Ib as (y & <- & Iy).
    unfold nsorted in S2. rewrite <- (firstn_skipn max L2) in S2. apply SS_app in S2. destruct S2 as (_ & _ & S2). exact (S2 x y Ix Iy).
Qed.

(** ** C36: the state dictionary *)
Definition dict_ok (d : dict) : Prop := awf d /\ (forall s i sc, aget Nat.eq_dec s d = Some (i, sc) -> i < length d) /\
  (forall s1 s2 i sc1 sc2, aget Nat.eq_dec s1 d = Some (i, sc1) -> aget Nat.eq_dec s2 d = Some (i, sc2) -> s1 = s2).
Lemma dict_create_get : forall s sc d s', aget Nat.eq_dec s' (createDictEntry s sc d) =
  if Nat.eq_dec s' s then Some (match aget Nat.eq_dec s d with Some (i, _) => i | None => length d end, sc) else aget Nat.eq_dec s' d.
Proof. intros. unfold createDictEntry. destruct (aget Nat.eq_dec s d) as [[i x]|]; apply aget_aset. Qed.
Lemma dict_create_ok : forall s sc d, dict_ok d -> dict_ok (createDictEntry s sc d).
Proof.
  intros s sc d (A & B & C).
  assert (L : length (createDictEntry s sc d) = match aget Nat.eq_dec s d with Some _ => length d | None => S (length d) end).
  { unfold createDictEntry. destruct (aget Nat.eq_dec s d) as [[i x]|] eqn:E; rewrite aset_length, E; auto. }
  split; [unfold createDictEntry; destruct (aget Nat.eq_dec s d) as [[i x]|]; now apply aset_wf|]. split.
  - intros s0 i sc0. rewrite dict_create_get, L. destruct (Nat.eq_dec s0 s).
    + intro H. inversion H; subst. destruct (aget Nat.eq_dec s d) as [[i0 x]|] eqn:E; [now apply B in E|lia].
    + intro H. apply B in H. destruct (aget Nat.eq_dec s d); lia.
  - intros s1 s2 i sc1 sc2. rewrite !dict_create_get. destruct (Nat.eq_dec s1 s), (Nat.eq_dec s2 s); try congruence; intros H1 H2.
    + inversion H1; subst. destruct (aget Nat.eq_dec s d) as [[i0 x]|] eqn:E; [eapply C; eauto|apply B in H2; lia].
    + inversion H2; subst. destruct (aget Nat.eq_dec s d) as [[i0 x]|] eqn:E; [eapply C; eauto|apply B in H1; lia].
    + eapply C; eauto.
Qed.
Lemma dict_nil_ok : dict_ok [].
Proof. split; [constructor|]. split; simpl; intros; discriminate. Qed.

Lemma first_uses_in : forall l s, In s (first_uses l) <-> In s l.
Proof.
  induction l as [|x l IH]; intro s; simpl; [tauto|]. rewrite filter_In, IH. destruct (Nat.eqb_spec s x); simpl; [subst; tauto|]. intuition.
Qed.
Lemma first_uses_snoc : forall l s, first_uses (l ++ [s]) = if in_dec Nat.eq_dec s l then first_uses l else first_uses l ++ [s].
Proof.
  induction l as [|x l IH]; intro s; [reflexivity|]. cbn [app first_uses]. rewrite IH.
  destruct (in_dec Nat.eq_dec s (x :: l)) as [I|I]; destruct (in_dec Nat.eq_dec s l) as [J|J]; auto.
  - destruct I as [->|I]; [|contradiction]. rewrite filter_app. simpl. rewrite Nat.eqb_refl. simpl. now rewrite app_nil_r.
  - exfalso. apply I. simpl. auto.
  - rewrite filter_app. simpl. destruct (Nat.eqb_spec s x); [exfalso; apply I; simpl; auto|]. reflexivity.
Qed.
Lemma filter_length : forall A f (l : list A), length (filter f l) <= length l.
Proof. induction l; simpl; auto. destruct (f a); simpl; lia. Qed.
(** last score recorded for a state *)
Lemma last_score_snoc : forall hs h s, last_score s (hs ++ [h]) = if hstate h =? s then Some (hscore h) else last_score s hs.
Proof. induction hs as [|x hs IH]; intros h s; simpl; auto. rewrite IH. destruct (hstate h =? s); auto. Qed.
Lemma last_score_none : forall hs s, last_score s hs = None <-> ~ In s (map hstate hs).
Proof.
  induction hs as [|x hs IH]; intro s; simpl; [tauto|]. destruct (last_score s hs) eqn:E.
  - split; [discriminate|]. intro H. exfalso. assert (X : last_score s hs = None) by (apply IH; tauto). congruence.
  - destruct (Nat.eqb_spec (hstate x) s); split; try discriminate; try tauto.
    intros _ [H|H]; [congruence|]. now apply IH in H.
Qed.
Lemma dict_run_snoc : forall hs h d, dict_run (hs ++ [h]) d = createDictEntry (hstate h) (hscore h) (dict_run hs d).
Proof. induction hs as [|x hs IH]; intros; simpl; auto. Qed.
Lemma dict_contents : forall hs, dict_ok (dict_run hs []) /\ length (dict_run hs []) = length (first_uses (map hstate hs)) /\
  forall s, match aget Nat.eq_dec s (dict_run hs []) with
            | Some (i, sc) => nth_error (first_uses (map hstate hs)) i = Some s /\ last_score s hs = Some sc
            | None => ~ In s (map hstate hs)
            end.
Proof.
  induction hs as [|h hs (A & B & C)] using rev_ind; [split; [apply dict_nil_ok|split; [reflexivity|simpl; auto]]|].
  rewrite dict_run_snoc, map_app. cbn [map]. split; [now apply dict_create_ok|]. rewrite first_uses_snoc.
  pose proof (C (hstate h)) as Ch. split.
  - unfold createDictEntry. destruct (aget Nat.eq_dec (hstate h) (dict_run hs [])) as [[i sc]|] eqn:E.
    + rewrite aset_length, E. destruct (in_dec Nat.eq_dec (hstate h) (map hstate hs)) as [I|I]; auto.
      destruct Ch as (_ & Ch). exfalso. apply last_score_none in I. congruence.
    + rewrite aset_length, E. destruct (in_dec Nat.eq_dec (hstate h) (map hstate hs)) as [I|I]; [contradiction|]. rewrite app_length. simpl. lia.
  - intro s. rewrite dict_create_get, last_score_snoc. pose proof (C s) as Cs.
    destruct (Nat.eq_dec s (hstate h)) as [->|N].
    + rewrite Nat.eqb_refl. split; [|reflexivity]. destruct (aget Nat.eq_dec (hstate h) (dict_run hs [])) as [[i sc]|] eqn:E.
      * destruct Ch as (Ch & Ch2). destruct (in_dec Nat.eq_dec (hstate h) (map hstate hs)); auto. rewrite nth_error_app1; auto. apply nth_error_Some. congruence.
      * destruct (in_dec Nat.eq_dec (hstate h) (map hstate hs)); [contradiction|]. rewrite B. rewrite nth_error_app2, Nat.sub_diag by auto. reflexivity.
    + destruct (aget Nat.eq_dec s (dict_run hs [])) as [[i sc]|] eqn:E.
      * destruct Cs as (Cs & Cs2). destruct (Nat.eqb_spec (hstate h) s); [congruence|]. split; auto. destruct (in_dec Nat.eq_dec (hstate h) (map hstate hs)); auto.
        rewrite nth_error_app1; auto. apply nth_error_Some. congruence.
      * rewrite in_app_iff. simpl. intuition.
Qed.
Lemma dict_stable : forall hs1 hs2 s i sc, aget Nat.eq_dec s (dict_run hs1 []) = Some (i, sc) ->
  exists sc', aget Nat.eq_dec s (dict_run (hs1 ++ hs2) []) = Some (i, sc').
Proof.
  intros hs1 hs2 s i sc E. assert (R : dict_run (hs1 ++ hs2) [] = dict_run hs2 (dict_run hs1 [])).
  { clear. generalize (@nil (nat * (nat * Z))). induction hs1; intro d; simpl; auto. }
  rewrite R. clear R. revert s i sc E. generalize (dict_run hs1 []). clear. induction hs2 as [|h hs IH]; intros d s i sc E; simpl; [eauto|].
  assert (X : exists sc', aget Nat.eq_dec s (createDictEntry (hstate h) (hscore h) d) = Some (i, sc')).
  { rewrite dict_create_get. destruct (Nat.eq_dec s (hstate h)) as [->|]; [rewrite E|]; eauto. }
  destruct X as (sc' & X). eapply IH; eauto.
Qed.

(** a decision procedure for the examples *)
Lemma classes_check : forall ops, forallb (fun a => forallb (fun b => negb (hstate a =? hstate b) || ((fst (hclass a) =? fst (hclass b)) && (snd (hclass a) =? snd (hclass b))))
  (pushed ops)) (pushed ops) = true -> classes_by_state ops.
Proof.
  intros ops F a b Ia Ib E. rewrite forallb_forall in F. specialize (F a Ia). rewrite forallb_forall in F. specialize (F b Ib). rewrite E, Nat.eqb_refl in F. simpl in F.
  apply andb_true_iff in F. destruct F as (F1 & F2). apply Nat.eqb_eq in F1, F2. destruct (hclass a), (hclass b). simpl in *. congruence.
Qed.
