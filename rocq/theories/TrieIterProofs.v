(** Proofs about TrieVecs iteration. *)
From Coq Require Import Arith List Bool Lia.
From Verif Require Import ContainerSpec ContainerModel ContainerProofs TrieIterSpec TrieIterModel.
Import ListNotations.

Section ITERP.
Context {K D : Type}.
Notation tr := (trie K D).

(** post-order listing *)
Fixpoint post (pre : list K) (t : tr) : list (list K * D) :=
  match t with
  | Node d ch => (fix go (l : list (K * tr)) := match l with [] => [] | (k, c) :: r => post (pre ++ [k]) c ++ go r end) ch ++ [(pre, d)]
  end.
Definition postl (pre : list K) (l : list (K * tr)) := flat_map (fun p => post (pre ++ [fst p]) (snd p)) l.
Lemma post_eq : forall pre d ch, post pre (Node d ch) = postl pre ch ++ [(pre, d)].
Proof. intros. simpl. f_equal. induction ch as [|[k c] r IH]; simpl; auto. now rewrite IH. Qed.

Fixpoint rest (ps : list tr) (is : list (list (K * tr))) (key : list K) : list (list K * D) :=
  match ps, is with
  | p1 :: ps', i1 :: is' => postl (removelast key) (tl i1) ++ [(removelast key, tdata p1)] ++ rest ps' is' (removelast key)
  | _, _ => []
  end.

Lemma descend_out : forall t ps is key, length is = S (length ps) ->
  exists p ps' is' key' d', ti_descend t (t :: ps) is key = ItAt (p :: ps') ([] :: is') key' d' /\
    length is' = S (length ps') /\ (key', d') :: rest ps' is' key' = post key t ++ rest ps is key.
Proof.
  induction t as [d ch IH] using trie_rect'. intros ps is key L. destruct ch as [|[k c] r].
  - exists (Node d []), ps, is, key, d. cbn [ti_descend]. rewrite post_eq. auto.
  - cbn [ti_descend]. destruct (IH k c (or_introl eq_refl) (Node d ((k, c) :: r) :: ps) (((k, c) :: r) :: is) (key ++ [k]))
      as (p & ps' & is' & key' & d' & E & L' & O); [cbn [length]; lia|].
    exists p, ps', is', key', d'. split; [exact E|]. split; auto. rewrite O, post_eq. cbn [rest tl tdata postl flat_map fst snd].
    rewrite removelast_last. fold (postl key r). now rewrite <- !app_assoc.
Qed.

Lemma next_out : forall p ps is key d, length is = S (length ps) ->
  match ps with
  | [] => ti_next (ItAt [p] ([] :: is) key d) = Some ItEnd /\ rest ps is key = []
  | _ => exists p' ps' is' key' d', ti_next (ItAt (p :: ps) ([] :: is) key d) = Some (ItAt (p' :: ps') ([] :: is') key' d') /\
      length is' = S (length ps') /\ (key', d') :: rest ps' is' key' = rest ps is key
  end.
Proof.
  intros p [|p1 ps] is key d L; [split; reflexivity|]. destruct is as [|i1 is]; [discriminate|]. cbn [length] in L.
  cbn [ti_next oi_incr tl ti_down rest]. unfold oi_incr. destruct (tl i1) as [|[k c] r] eqn:E.
  - exists p1, ps, is, (removelast key), (tdata p1). split; [reflexivity|]. split; [lia|reflexivity].
  - destruct (descend_out c (p1 :: ps) (((k, c) :: r) :: is) (removelast key ++ [k])) as (p' & ps' & is' & key' & d' & E1 & L1 & O);
      [exact L|].
    exists p', ps', is', key', d'. rewrite <- E1. split; [reflexivity|]. split; auto. rewrite O. cbn [rest tl postl flat_map fst snd].
    rewrite removelast_last. fold (postl (removelast key) r). now rewrite <- !app_assoc.
Qed.

Lemma run_out : forall n p ps is key d, length is = S (length ps) -> n = length (rest ps is key) ->
  ti_run (S (S n)) (ItAt (p :: ps) ([] :: is) key d) = Some ((key, d) :: rest ps is key).
Proof.
  induction n as [|n IH]; intros p ps is key d L E; pose proof (next_out p ps is key d L) as N; destruct ps as [|p1 ps].
  - destruct N as [N R]. cbn [ti_run]. rewrite N, R. reflexivity.
  - destruct N as (p' & ps' & is' & key' & d' & N & L' & O). rewrite <- O in E. discriminate.
  - destruct N as [N R]. rewrite R in E. discriminate.
  - destruct N as (p' & ps' & is' & key' & d' & N & L' & O). rewrite <- O in E |- *. cbn [length] in E. injection E as E.
    remember (S (S n)) as m. cbn [ti_run]. rewrite N. subst m. rewrite IH; auto.
Qed.

Lemma post_length : forall t pre, length (post pre t) = trie_size t.
Proof.
  induction t as [d ch IH] using trie_rect'. intro pre. rewrite post_eq, app_length. simpl. rewrite Nat.add_1_r. f_equal.
  unfold postl. induction ch as [|[k c] r IHr]; [reflexivity|]. cbn [flat_map fst snd]. rewrite app_length, (IH k c (or_introl eq_refl)).
  f_equal. apply IHr. intros k' c' I. apply (IH k' c'). now right.
Qed.

Theorem entries_post : forall t, trie_entries t = Some (post [] t).
Proof.
  intro t. unfold trie_entries, ti_begin. destruct (descend_out t [] [tch t] [] eq_refl) as (p & ps & is & key & d & E & L & O).
  rewrite E. cbn [rest] in O. rewrite app_nil_r in O. rewrite <- (post_length t []), <- O. cbn [length].
  now apply run_out.
Qed.

Variable ltb : K -> K -> bool.
Hypothesis ST : strict_total ltb.

Lemma walk_in_ch : forall (t : tr) k q d, twf ltb t -> (trie_walk ltb (k :: q) t = Some (Some d) <-> exists c : tr, In (k, c) (tch t) /\ trie_walk ltb q c = Some (Some d)).
Proof.
  intros t k q d W. destruct (twf_inv ltb t W) as [S C]. simpl. destruct (findPtr_total ltb ST (tch t) k S) as [[c|] E]; rewrite E.
  - apply (findPtr_some ltb ST) in E; auto. split; [eauto|]. intros (c' & I & X).
    assert (c' = c). { apply (findPtr_some ltb ST) in I; auto. apply (findPtr_some ltb ST) in E; auto. congruence. } now subst.
  - split; [discriminate|]. intros (c' & I & _). apply (findPtr_some ltb ST) in I; auto. congruence.
Qed.

Lemma post_in : forall (t : tr) pre p d, twf ltb t -> (In (p, d) (post pre t) <-> exists q, p = pre ++ q /\ trie_walk ltb q t = Some (Some d)).
Proof.
  induction t as [d0 ch IH] using trie_rect'. intros pre p d W. destruct (twf_inv ltb _ W) as [S C]. cbn [tch] in *. rewrite post_eq, in_app_iff. unfold postl. rewrite in_flat_map. split.
  - intros [([k c] & I & X)|[X|[]]].
    + cbn [fst snd] in X. rewrite (IH k c I (pre ++ [k])) in X by eauto. destruct X as (q & -> & X). exists (k :: q). rewrite <- app_assoc.
      split; auto. rewrite walk_in_ch by auto. eauto.
    + injection X as -> ->. exists []. rewrite app_nil_r. auto.
  - intros (q & -> & X). destruct q as [|k q].
    + cbn [trie_walk tdata] in X. injection X as ->. right. left. now rewrite app_nil_r.
    + rewrite walk_in_ch in X by auto. destruct X as (c & I & X). left. exists (k, c). split; auto. cbn [fst snd].
      apply (IH k c I (pre ++ [k])); [eauto|]. exists q. now rewrite <- app_assoc.
Qed.

Lemma post_keys_ext : forall t pre p, In p (map fst (post pre t)) -> exists q, p = pre ++ q.
Proof.
  induction t as [d0 ch IH] using trie_rect'. intros pre p. rewrite post_eq, map_app, in_app_iff. intros [X|[X|[]]].
  - unfold postl in X. apply in_map_iff in X. destruct X as ([p' d'] & E & X). cbn [fst] in E. subst p'. apply in_flat_map in X. destruct X as ([k c] & I & X).
    cbn [fst snd] in X. destruct (IH k c I (pre ++ [k]) p) as [q ->]; [apply in_map_iff; exists (p, d'); auto|]. exists (k :: q). now rewrite <- app_assoc.
  - exists []. now rewrite app_nil_r.
Qed.

Lemma nodup_app_l : forall A (a b : list A), NoDup a -> NoDup b -> (forall x, In x a -> In x b -> False) -> NoDup (a ++ b).
Proof.
  induction a as [|x a IH]; simpl; intros b Ha Hb H; auto. inversion Ha; subst. constructor.
  - rewrite in_app_iff. intros [X|X]; [auto|eapply H; eauto].
  - apply IH; auto. intros y Y1 Y2. eapply H; eauto.
Qed.

Lemma postl_keys : forall pre l p, In p (map fst (postl pre l)) -> exists k c q, In (k, c) l /\ p = pre ++ k :: q.
Proof.
  intros pre l p X. apply in_map_iff in X. destruct X as ([p' d'] & E & X). cbn [fst] in E. subst p'. unfold postl in X. apply in_flat_map in X.
  destruct X as ([k c] & I & X). cbn [fst snd] in X. destruct (post_keys_ext c (pre ++ [k]) p) as [q ->]; [apply in_map_iff; exists (p, d'); auto|].
  exists k, c, q. rewrite <- app_assoc. auto.
Qed.

Lemma post_nodup : forall t pre, twf ltb t -> NoDup (map fst (post pre t)).
Proof.
  induction t as [d0 ch IH] using trie_rect'. intros pre W. destruct (twf_inv ltb _ W) as [S C]. cbn [tch] in *. rewrite post_eq, map_app. clear W.
  apply nodup_app_l.
  - induction ch as [|[k c] r IHr]; [constructor|]. unfold postl. cbn [flat_map fst snd]. rewrite map_app. fold (postl pre r).
    assert (S' := S). apply Sorted.StronglySorted_inv in S'. destruct S' as [S' F]. rewrite Forall_forall in F.
    apply nodup_app_l.
    + apply (IH k c); [now left|]. apply (C k). now left.
    + apply IHr; auto; [intros k' c' I; apply (IH k'); now right|intros k' c' I; apply (C k'); now right].
    + intros x X Y. destruct (post_keys_ext _ _ _ X) as [q ->]. destruct (postl_keys _ _ _ Y) as (k' & c' & q' & I & E).
      rewrite <- app_assoc in E. apply app_inv_head in E. injection E as <- _. apply F in I. exact (irr ltb ST _ I).
  - cbn. repeat constructor; intros [].
  - intros x X [<-|[]]. destruct (postl_keys _ _ _ X) as (k' & c' & q' & I & E). cbn [fst] in E.
    apply (f_equal (@length K)) in E. rewrite app_length in E. cbn [length] in E. lia.
Qed.

Lemma app_split_mid : forall (A : Type) (a b l1 l2 : list A) x, a ++ b = l1 ++ x :: l2 ->
  (exists a2, a = l1 ++ x :: a2 /\ l2 = a2 ++ b) \/ (exists b1, l1 = a ++ b1 /\ b = b1 ++ x :: l2).
Proof.
  induction a as [|y a IH]; intros b l1 l2 x E.
  - right. exists l1. auto.
  - destruct l1 as [|z l1]; cbn [app] in E; injection E as -> E.
    + left. exists a. auto.
    + destruct (IH _ _ _ _ E) as [(a2 & -> & ->)|(b1 & -> & ->)]; [left; exists a2; auto|right; exists b1; auto].
Qed.

Lemma post_longest : forall t pre, twf ltb t -> longest_first (map fst (post pre t)).
Proof.
  induction t as [d0 ch IH] using trie_rect'. intros pre W. destruct (twf_inv ltb _ W) as [S C]. cbn [tch] in *.
  intros p r NE _ l1 l2. rewrite post_eq, map_app. clear W. intros E X.
  change (map fst [(pre, d0)]) with [pre] in E.
  destruct (app_split_mid _ _ _ _ _ _ E) as [(a2 & E1 & ->)|(b1 & -> & E1)].
  - rewrite in_app_iff in X. destruct X as [X|[X|[]]].
    + clear E. revert l1 a2 E1 X. induction ch as [|[k c] ch IHc]; intros l1 a2 E1 X; [destruct l1; discriminate|].
      unfold postl in E1. cbn [flat_map fst snd] in E1. rewrite map_app in E1. fold (postl pre ch) in E1.
      assert (S' := S). apply Sorted.StronglySorted_inv in S'. destruct S' as [S' F]. rewrite Forall_forall in F.
      destruct (app_split_mid _ _ _ _ _ _ E1) as [(c2 & E2 & ->)|(b1 & -> & E2)].
      * rewrite in_app_iff in X. destruct X as [X|X].
        -- refine (IH k c (or_introl eq_refl) (pre ++ [k]) _ p r NE _ l1 c2 E2 X); [apply (C k); now left|]. rewrite E2, in_app_iff. right. now left.
        -- assert (I : In p (map fst (post (pre ++ [k]) c))) by (rewrite E2, in_app_iff; right; now left).
           destruct (post_keys_ext _ _ _ I) as [q Eq]. destruct (postl_keys _ _ _ X) as (k' & c' & q' & I' & E'). subst p.
           rewrite <- !app_assoc in E'. apply app_inv_head in E'. injection E' as <- _. apply F in I'. exact (irr ltb ST _ I').
      * refine (IHc _ S' _ b1 a2 E2 X); [intros k' c' I; apply (IH k'); now right|intros k' c' I; apply (C k'); now right].
    + assert (I : In p (map fst (postl pre ch))) by (rewrite E1, in_app_iff; right; now left).
      destruct (postl_keys _ _ _ I) as (k & c & q & _ & ->). apply (f_equal (@length K)) in X. rewrite !app_length in X. cbn [length] in X. lia.
  - destruct b1 as [|y b1]; [|destruct b1; discriminate]. injection E1 as _ <-. destruct X.
Qed.

Theorem entries_exact : forall (t : tr) l, twf ltb t -> trie_entries t = Some l ->
  lists_exactly (fun p d => trie_walk ltb p t = Some (Some d)) l /\ longest_first (map fst l).
Proof.
  intros t l W E. rewrite entries_post in E. injection E as <-. split; [split|].
  - now apply post_nodup.
  - intros p d. rewrite post_in by auto. split; [intros (q & -> & X); exact X|intro X; exists p; auto].
  - now apply post_longest.
Qed.
End ITERP.
