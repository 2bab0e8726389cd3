(** C11, C12, C48: the container classes. *)
From Coq Require Import Arith ZArith List Bool Lia Sorting.Sorted Permutation.
From Verif Require Import ContainerSpec ContainerModel ContainerProofs.
Import ListNotations.

(** C11: every history of push/[]/pop/clear calls ends in a vector with strictly increasing keys (no call fails) *)
Theorem C11_sorted : forall K D (ltb : K -> K -> bool), strict_total ltb -> forall (dflt : D) (h : list (ov_op K D)),
  exists v, ov_run ltb dflt [] h = Some v /\ StronglySorted (fun p q => ltb (fst p) (fst q) = true) v.
Proof. exact (fun K D ltb ST => ov_sorted_reachable ltb ST). Qed.
Print Assumptions C11_sorted.
Theorem C11_find_last_pushed : forall K D (ltb : K -> K -> bool), strict_total ltb ->
  forall (keq : forall a b : K, {a = b} + {a <> b}) (dflt : D) (h : list (ov_op K D)) v k,
  no_pop h -> ov_run ltb dflt [] h = Some v -> ov_findPtr ltb v k = Some (last_stored keq dflt h k None).
Proof. exact (fun K D ltb ST => ov_history0 ltb ST). Qed.
Print Assumptions C11_find_last_pushed.
Theorem C11_size_counts_keys : forall K D (ltb : K -> K -> bool), strict_total ltb ->
  forall (keq : forall a b : K, {a = b} + {a <> b}) (dflt : D) (h : list (ov_op K D)) v,
  no_pop h -> ov_run ltb dflt [] h = Some v ->
  exists ks, NoDup ks /\ length v = length ks /\ forall k, In k ks <-> last_stored keq dflt h k None <> None.
Proof. exact (fun K D ltb ST => ov_size_history ltb ST). Qed.
Print Assumptions C11_size_counts_keys.
(** pop removes the entry with the largest key and nothing else, after any history *)
Theorem C11_pop_removes_largest : forall K D (ltb : K -> K -> bool), strict_total ltb ->
  forall (dflt : D) (h : list (ov_op K D)) v, ov_run ltb dflt [] h = Some v -> v <> [] ->
  exists k d, ov_top v = Some (k, d) /\ (forall k' d', In (k', d') v -> k' <> k -> ltb k' k = true) /\
    ov_findPtr ltb v k = Some (Some d) /\ ov_findPtr ltb (ov_pop v) k = Some None /\
    forall k', k' <> k -> ov_findPtr ltb (ov_pop v) k' = ov_findPtr ltb v k'.
Proof. exact (fun K D ltb ST => ov_pop_law ltb ST). Qed.
Print Assumptions C11_pop_removes_largest.
Lemma nat_strict : strict_total Nat.ltb.
Proof. constructor; intros; rewrite ?Nat.ltb_lt, ?Nat.ltb_ge, ?Nat.ltb_irrefl in *; auto; lia. Qed.
Example C11_nonvacuous : strict_total Nat.ltb /\
  ov_run Nat.ltb 9 [] [OvPush 5 50; OvPush 2 20; OvIndex 3; OvPush 5 51; OvIndex 2] = Some [(2,20);(3,9);(5,51)] /\
  ov_findPtr Nat.ltb [(2,20);(3,9);(5,51)] 5 = Some (Some 51).
Proof. split; [exact nat_strict|split; reflexivity]. Qed.

(** C12: complete description of find after any insertion history *)
Theorem C12_find : forall K D (ltb : K -> K -> bool), strict_total ltb ->
  forall (keq : forall a b : K, {a = b} + {a <> b}) (dflt : D) (h : list (list K * D)) t p, p <> [] ->
  trie_run ltb dflt (tempty dflt) h = Some t ->
  (forall d, last_inserted keq h p None = Some d -> trie_find ltb p t = Some (Some d)) /\
  (last_inserted keq h p None = None -> (exists k d, In (k, d) h /\ nonempty_prefix p k) -> trie_find ltb p t = Some (Some dflt)) /\
  (last_inserted keq h p None = None -> ~ (exists k d, In (k, d) h /\ nonempty_prefix p k) -> trie_find ltb p t = Some None).
Proof. exact (fun K D ltb ST keq dflt => find_history ltb ST keq dflt). Qed.
Print Assumptions C12_find.
Theorem C12_insert_total : forall K D (ltb : K -> K -> bool), strict_total ltb -> forall (dflt : D) (h : list (list K * D)),
  exists t, trie_run ltb dflt (tempty dflt) h = Some t.
Proof. exact trie_run_total. Qed.
Print Assumptions C12_insert_total.
Theorem C12_size : forall K D (ltb : K -> K -> bool), strict_total ltb ->
  (forall a b : K, {a = b} + {a <> b}) -> forall (dflt : D) (h : list (list K * D)) t,
  trie_run ltb dflt (tempty dflt) h = Some t ->
  exists ps, NoDup ps /\ (forall p, In p ps <-> exists k d, In (k, d) h /\ nonempty_prefix p k) /\ trie_size t = S (length ps).
Proof. exact (fun K D ltb ST keq dflt => trie_size_history ltb ST keq dflt). Qed.
Print Assumptions C12_size.
Theorem C12_height : forall K D (ltb : K -> K -> bool), strict_total ltb ->
  (forall a b : K, {a = b} + {a <> b}) -> forall (dflt : D) (h : list (list K * D)) t,
  trie_run ltb dflt (tempty dflt) h = Some t -> trie_height t = fold_right Nat.max 0 (map (fun e => length (fst e)) h).
Proof. exact (fun K D ltb ST keq dflt => trie_height_history ltb ST keq dflt). Qed.
Print Assumptions C12_height.
Example C12_nonvacuous : exists t, trie_run Nat.ltb 0 (tempty 0) [([1;2], 12); ([1;3;4], 134); ([1;2], 99)] = Some t /\
  trie_find Nat.ltb [1;2] t = Some (Some 99) /\ trie_find Nat.ltb [1;3] t = Some (Some 0) /\ trie_find Nat.ltb [2] t = Some None /\
  trie_size t = 5 /\ trie_height t = 3.
Proof. eexists. split; [reflexivity|repeat split]. Qed.

(** C48 *)
Theorem C48_insertions_are_stable_descending_sort : forall D (h l : list (Z * D)),
  nb_run [] (map (fun p => NbInsert (fst p) (snd p)) h) = Some l ->
  descending l /\ Permutation l h /\ forall s, with_score s l = with_score s h.
Proof. exact (@nb_inserts_sorted_stable). Qed.
Print Assumptions C48_insertions_are_stable_descending_sort.
Theorem C48_always_descending : forall D (h : list nb_op) (l : list (Z * D)), nb_run [] h = Some l -> descending l.
Proof. exact (fun D h l => nb_reachable_desc h [] l (SSorted_nil _)). Qed.
Print Assumptions C48_always_descending.
Theorem C48_prune_removes_exactly_below : forall D (h : list nb_op) (l : list (Z * D)) th, nb_run [] h = Some l ->
  nb_step l (NbPrune th) = Some (filter (fun p => negb (fst p <? th)%Z) l).
Proof. exact nb_prune_step. Qed.
Print Assumptions C48_prune_removes_exactly_below.
Theorem C48_best_is_max : forall D (h : list nb_op) (l : list (Z * D)) s d, nb_run [] h = Some l -> nb_best l = Some (s, d) ->
  In (s, d) l /\ forall s' d', In (s', d') l -> (s' <= s)%Z.
Proof. exact (@nb_best_max). Qed.
Print Assumptions C48_best_is_max.
Example C48_nonvacuous : nb_run [] [NbInsert 3 10; NbInsert 5 11; NbInsert 3 12; NbInsert 1 13; NbPrune 2]%Z = Some [(5,11);(3,10);(3,12)]%Z.
Proof. reflexivity. Qed.
