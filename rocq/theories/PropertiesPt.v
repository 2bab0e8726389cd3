(** C25-C28, C55: phrase tables. *)
From Coq Require Import ZArith NArith QArith List Bool Lia.
From Verif Require Import CodecModel PtSpec PtModel PtProofs PtEntries.
Import ListNotations.
Open Scope Z_scope.

(** C25: after any history of calls [h] on a new in-memory table *)
Theorem C25_addTableEntry : forall h p s t cs cst, stl_run h = Some p -> exists p', stl_addTableEntry s t cs cst p = Some p' /\
  stl_cSrc s p' = cs /\ stl_cTrg t p' = stl_cTrg t p + cst /\ fst (stl_cSrcTrg s t p') = cst /\
  (forall s', s' <> s -> stl_getSrcInfo s' p' = stl_getSrcInfo s' p) /\
  (forall t', t' <> t -> stl_cTrg t' p' = stl_cTrg t' p) /\
  (forall s' t', (s', t') <> (s, t) -> fst (stl_getSrcTrgInfo s' t' p') = fst (stl_getSrcTrgInfo s' t' p)).
Proof. exact stl_add_frame. Qed.
Print Assumptions C25_addTableEntry.
Theorem C25_incrCountsOfEntry : forall h p s t n, stl_run h = Some p -> exists p', stl_incrCountsOfEntry s t n p = Some p' /\
  stl_cSrc s p' = stl_cSrc s p + n /\ stl_cTrg t p' = stl_cTrg t p + n /\ fst (stl_cSrcTrg s t p') = fst (stl_cSrcTrg s t p) + n /\
  (forall s', s' <> s -> stl_getSrcInfo s' p' = stl_getSrcInfo s' p) /\
  (forall t', t' <> t -> stl_cTrg t' p' = stl_cTrg t' p) /\
  (forall s' t', (s', t') <> (s, t) -> fst (stl_getSrcTrgInfo s' t' p') = fst (stl_getSrcTrgInfo s' t' p)).
Proof. exact stl_incr_frame. Qed.
Print Assumptions C25_incrCountsOfEntry.
(** the whole table after any history is what the history says *)
Theorem C25_contents : forall h p s t, stl_run h = Some p ->
  stl_getSrcInfo s p = c_src (contents_after h) s /\ stl_cTrg t p = c_trg (contents_after h) t /\
  fst (stl_getSrcTrgInfo s t p) = c_st (contents_after h) s t.
Proof. exact stl_contents. Qed.
Print Assumptions C25_contents.
(** exactly the histories in which addSrcTrgInfo is given a known source phrase have defined behaviour *)
Theorem C25_defined : forall h, legal h <-> exists p, stl_run h = Some p.
Proof. exact stl_legal. Qed.
Print Assumptions C25_defined.
Theorem C25_unknown_source_refuted : forall h p s t n, stl_run h = Some p -> stl_getSrcInfo s p = None -> stl_addSrcTrgInfo s t n p = None.
Proof. exact stl_addSrcTrg_unknown. Qed.
Print Assumptions C25_unknown_source_refuted.
Definition demo : list pt_op := [PAdd [1;3]%N [7]%N 5 2; PIncr [4]%N [7]%N 3; PQuery [4]%N [9]%N; PAddSrcTrg [4]%N [8;8]%N 6; PIncr [4]%N [7]%N (-1)].
Example C25_nonvacuous : legal demo /\ Forall good_op demo /\ exists p, stl_run demo = Some p /\ stl_cTrg [7]%N p = 4 /\ fst (stl_cSrcTrg [4]%N [8;8]%N p) = 6.
Proof.
  split; [vm_compute; intuition discriminate|]. split.
  - repeat constructor; simpl; unfold good_trg, good_src; try lia; discriminate.
  - eexists. split; [vm_compute; reflexivity|split; reflexivity].
Qed.

(** C26 *)
Theorem C26_source_marginal : forall h p s L, only_incr h -> stl_run h = Some p -> NoDup L -> incl (trg_with s h) L ->
  stl_cSrc s p = sumZ (map (fun t => fst (stl_cSrcTrg s t p)) L).
Proof. exact stl_marginal_src. Qed.
Print Assumptions C26_source_marginal.
Theorem C26_target_marginal : forall h p t L, only_incr h -> stl_run h = Some p -> NoDup L -> incl (src_with t h) L ->
  stl_cTrg t p = sumZ (map (fun s => fst (stl_cSrcTrg s t p)) L).
Proof. exact stl_marginal_trg. Qed.
Print Assumptions C26_target_marginal.
Theorem C26_target_distribution : forall h p s L, positive_incr h -> stl_run h = Some p -> NoDup L -> (forall t, In t L <-> In t (trg_with s h)) -> L <> [] ->
  (sumQ (map (fun t => fst (stl_pTrgGivenSrc s t p)) L) == 1)%Q.
Proof. exact p_sum_src. Qed.
Print Assumptions C26_target_distribution.
Theorem C26_source_distribution : forall h p t L, positive_incr h -> stl_run h = Some p -> NoDup L -> (forall s, In s L <-> In s (src_with t h)) -> L <> [] ->
  (sumQ (map (fun s => fst (stl_pSrcGivenTrg s t p)) L) == 1)%Q.
Proof. exact p_sum_trg. Qed.
Print Assumptions C26_source_distribution.
Definition demo_incr : list pt_op := [PIncr [1]%N [7]%N 3; PIncr [1]%N [8]%N 1; PIncr [2]%N [7]%N 5; PIncr [1]%N [7]%N 2].
Example C26_nonvacuous : positive_incr demo_incr /\ trg_with [1]%N demo_incr = [[7]; [8]; [7]]%N /\
  exists p, stl_run demo_incr = Some p /\ stl_cSrc [1]%N p = 6 /\ stl_cTrg [7]%N p = 10 /\ (fst (stl_pTrgGivenSrc [1]%N [7]%N p) == 5#6)%Q.
Proof. split; [repeat constructor|split; [reflexivity|]]. eexists. split; [vm_compute; reflexivity|repeat split; reflexivity]. Qed.

(** C27 *)
Theorem C27_queries_preserve_counts : forall h p s t, stl_run h = Some p ->
  let p' := snd (stl_cSrcTrg s t p) in
  (forall s', stl_getSrcInfo s' p' = stl_getSrcInfo s' p) /\
  (forall t', stl_cTrg t' p' = stl_cTrg t' p) /\
  (forall s' t', fst (stl_getSrcTrgInfo s' t' p') = fst (stl_getSrcTrgInfo s' t' p)) /\
  (forall s' t', fst (stl_infSrcTrg s' t' p') = fst (stl_infSrcTrg s' t' p)) /\
  stl_size p' = (stl_size p + match stl_getTrgInfo t p with Some _ => 0 | None => 1 end)%nat /\
  snd (stl_cSrcTrg s t p') = p'.
Proof. exact stl_query_frame. Qed.
Print Assumptions C27_queries_preserve_counts.
Example C27_nonvacuous : exists p, stl_run demo = Some p /\ stl_size (snd (stl_cSrcTrg [4]%N [5;5]%N p)) = S (stl_size p).
Proof. eexists. split; [vm_compute; reflexivity|reflexivity]. Qed.

(** C28 *)
Theorem C28_hattrie_agrees : forall h p, Forall good_op h -> stl_run h = Some p ->
  (forall s, good_src s -> hat_getSrcInfo s (hat_run h) = stl_getSrcInfo s p) /\
  (forall t, good_trg t -> hat_cTrg t (hat_run h) = stl_cTrg t p) /\
  (forall s t, good_src s -> good_trg t -> hat_getSrcTrgInfo s t (hat_run h) = fst (stl_getSrcTrgInfo s t p)) /\
  (forall s t, good_src s -> good_trg t -> hat_infSrcTrg s t (hat_run h) = fst (stl_infSrcTrg s t p)).
Proof. exact stl_hat_agree. Qed.
Print Assumptions C28_hattrie_agrees.
Theorem C28_leveldb_agrees : forall h p, Forall good_op h -> stl_run h = Some p ->
  (forall s, good_src s -> ldb_getSrcInfo s (ldb_run h) = stl_getSrcInfo s p) /\
  (forall s t, good_src s -> good_trg t -> ldb_getSrcTrgInfo s t (ldb_run h) = fst (stl_getSrcTrgInfo s t p)) /\
  (forall s t, good_src s -> good_trg t -> ldb_infSrcTrg s t (ldb_run h) = fst (stl_infSrcTrg s t p)) /\
  (fresh_adds h -> forall t, good_trg t -> ldb_cTrg t (ldb_run h) = stl_cTrg t p).
Proof. exact stl_ldb_agree. Qed.
Print Assumptions C28_leveldb_agrees.
(** the exception: LevelDB's addTableEntry replaces the target total *)
Theorem C28_leveldb_overwrites_refuted : forall h p p' s t cs cst, Forall good_op h -> stl_run h = Some p -> good_src s -> good_trg t ->
  stl_addTableEntry s t cs cst p = Some p' -> ldb_cTrg t (ldb_addTableEntry s t cs cst (ldb_run h)) = cst /\ stl_cTrg t p' = stl_cTrg t p + cst.
Proof. exact ldb_overwrites. Qed.
Print Assumptions C28_leveldb_overwrites_refuted.
Example C28_nonvacuous : Forall good_op demo /\ fresh_adds demo /\ hat_cTrg [7]%N (hat_run demo) = 4 /\ ldb_cTrg [7]%N (ldb_run demo) = 4 /\
  ldb_cTrg [7]%N (ldb_run (demo ++ [PAdd [4]%N [7]%N 1 1])) = 1 /\ hat_cTrg [7]%N (hat_run (demo ++ [PAdd [4]%N [7]%N 1 1])) = 5.
Proof.
  split; [apply C25_nonvacuous|]. split; [vm_compute; intuition|]. split; [reflexivity|]. split; [reflexivity|]. split; reflexivity.
Qed.

(** C55 *)
Theorem C55_stl_entries_for_target : forall h p t, stl_run h = Some p -> (exists s, stl_getSrcInfo s p <> None) -> exists b res p',
  stl_getEntriesForTarget t p = Some (b, res, p') /\ (forall x, In x res <-> entry_of (contents_after h) t x) /\ NoDup (map fst res) /\ (b = true <-> res <> []).
Proof. exact stl_targets. Qed.
Print Assumptions C55_stl_entries_for_target.
Theorem C55_stl_empty_table_refuted : forall h p t, stl_run h = Some p -> (forall s, stl_getSrcInfo s p = None) -> stl_getEntriesForTarget t p = None.
Proof. exact stl_targets_empty. Qed.
Print Assumptions C55_stl_empty_table_refuted.
Theorem C55_stl_entries_for_source : forall h p s, stl_run h = Some p -> let r := stl_getEntriesForSource s p in
  (forall x, In x (snd r) <-> entry_of_src (contents_after h) s x) /\ NoDup (map fst (snd r)) /\ (fst r = true <-> snd r <> []).
Proof. exact stl_sources. Qed.
Print Assumptions C55_stl_entries_for_source.
Theorem C55_hattrie_entries_for_target : forall h t, Forall good_op h -> good_trg t -> exists b res,
  hat_getEntriesForTarget t (hat_run h) = Some (b, res) /\
  (forall x, In x res <-> good_src (fst x) /\ entry_of (contents_after h) t x) /\ NoDup (map fst res) /\ (b = true <-> res <> []).
Proof. exact hat_entries_trg. Qed.
Print Assumptions C55_hattrie_entries_for_target.
Theorem C55_hattrie_entries_for_source : forall h s, Forall good_op h -> good_src s -> exists b res,
  hat_getEntriesForSource s (hat_run h) = Some (b, res) /\
  (forall x, In x res <-> good_trg (fst x) /\ entry_of_src (contents_after h) s x) /\ NoDup (map fst res) /\ (b = true <-> res <> []).
Proof. exact hat_entries_src. Qed.
Print Assumptions C55_hattrie_entries_for_source.
(** LevelDB returns true as soon as a pair record exists, even if all listed counts are zero *)
Theorem C55_leveldb_entries_for_target : forall h t, Forall good_op h -> good_trg t -> exists b res,
  ldb_getEntriesForTarget t (ldb_run h) = Some (b, res) /\
  (forall x, In x res <-> good_src (fst x) /\ entry_of (contents_after h) t x) /\ NoDup (map fst res) /\
  (b = true <-> exists s, good_src s /\ c_st (contents_after h) s t <> None).
Proof. exact ldb_entries_trg. Qed.
Print Assumptions C55_leveldb_entries_for_target.
Example C55_nonvacuous : ldb_getEntriesForTarget [7]%N (ldb_run demo) = Some (true, [([1;3]%N, (5, 2)); ([4]%N, (2, 2))]) /\
  ldb_getEntriesForTarget [7]%N (ldb_run [PIncr [1]%N [7]%N 0]) = Some (true, []) /\
  hat_getEntriesForTarget [7]%N (hat_run [PIncr [1]%N [7]%N 0]) = Some (false, []).
Proof. repeat split; reflexivity. Qed.
