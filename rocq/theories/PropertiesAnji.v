(** C41: the matrix of expected alignment values as a cache.  Specification: AnjiSpec.v (a queue of sentence entries); code: AnjiModel.v. *)
From Coq Require Import ZArith List Lia.
From Verif Require Import AnjiSpec AnjiModel.
From Verif Require AnjiProofs AnjiLoadProofs.
Import ListNotations.
Open Scope nat_scope.

(** C41: after any history of single-cell writes, clearings, resets and changes of the bound, no vector is indexed out of range and every read gives what
    the queue remembers: the last value written for (n,j,i) if sentence n has not been pushed out since, the marker otherwise *)
Theorem C41_fifo_cells : forall os, Forall cellwise os ->
  exists M, run anji_new os = Some M /\ forall n j i, get M n j i = read (snd (spec_run os)) n j i.
Proof. intros os F. destruct (AnjiProofs.fifo false os F) as (M & E & _ & G). exists M. auto. Qed.
Print Assumptions C41_fifo_cells.
(** the same for the way the alignment models use it: reserve room for a sentence pair, then write inside that room through the unchecked interface *)
Theorem C41_fifo_visits : forall os, Forall within os ->
  exists M, run anji_new os = Some M /\ forall n j i, get M n j i = read (snd (spec_run os)) n j i.
Proof. intros os F. destruct (AnjiProofs.fifo true os F) as (M & E & _ & G). exists M. auto. Qed.
Print Assumptions C41_fifo_visits.
(** the queue never holds more sentences than the bound; with bound 0 it holds none *)
Theorem C41_bound : forall os k q, spec_run os = (Some k, q) -> length q <= k.
Proof. intros os k q E. exact (AnjiProofs.cache_bound os (Some k) q E). Qed.
Print Assumptions C41_bound.
(** writing the matrix to files and loading it into an unbounded matrix loses nothing: whatever is done next behaves as if nothing had happened *)
Theorem C41_save_load : forall os1 os2 M0, (Forall cellwise os1 /\ Forall cellwise os2) \/ (Forall within os1 /\ Forall within os2) -> maxn M0 = None ->
  exists M M1 M2, run anji_new os1 = Some M /\ load M0 (print_values M) (print_ms M) = Some M1 /\ run M1 os2 = Some M2 /\
  forall n j i, get M2 n j i = read (snd (spec_run (os1 ++ os2))) n j i.
Proof. intros os1 os2 M0 [[F1 F2]|[F1 F2]] H; [exact (AnjiLoadProofs.reload_continue false os1 os2 M0 F1 F2 H)|exact (AnjiLoadProofs.reload_continue true os1 os2 M0 F1 F2 H)]. Qed.
Print Assumptions C41_save_load.
(** Findings.  Loading into a matrix whose bound is 0 (the state efficientBatchTraining leaves) keeps the slot table and drops the values, and the next
    eviction indexes an empty vector: *)
Theorem C41_load_into_zero_refuted : exists os M M1, run anji_new os = Some M /\ get M 3 0 0 = 5%Z /\
  load (set_maxnsize anji_new (Some 0)) (print_values M) (print_ms M) = Some M1 /\ get M1 3 0 0 = invalid /\ set M1 4 0 0 7%Z = None.
Proof. exists [SetMax (Some 1); Set_ 3 0 0 5%Z]. eexists. eexists. split; [reflexivity|]. repeat split. Qed.
Print Assumptions C41_load_into_zero_refuted.
(** loading into a bounded matrix leaves stale slots behind: a sentence that was never stored reads another sentence's value *)
Theorem C41_load_into_bounded_refuted : exists os M M1, run anji_new os = Some M /\ get M 0 0 0 = invalid /\
  load (set_maxnsize anji_new (Some 1)) (print_values M) (print_ms M) = Some M1 /\ get M1 0 0 0 = 5%Z.
Proof. exists [SetMax (Some 1); Set_ 3 0 0 5%Z]. eexists. eexists. split; [reflexivity|]. repeat split. Qed.
Print Assumptions C41_load_into_bounded_refuted.
(** mixing the two interfaces is not safe: room is reserved by looking at the first row only *)
Theorem C41_mixed_use_refuted : exists n slen tlen ws M, Forall (fun w => fst (fst w) <= tlen /\ snd (fst w) <= slen) ws /\
  run anji_new [Set_ n 0 1 5%Z; Set_ n 1 0 6%Z] = Some M /\ do_op M (Visit n slen tlen ws) = None.
Proof. exists 0, 1, 1, [(1, 1, 7%Z)]. eexists. split; [repeat constructor|]. split; reflexivity. Qed.
Print Assumptions C41_mixed_use_refuted.
(** three sentences through two slots; the first is pushed out, the second survives a save and load *)
Definition reads (M : anjiM) := map (fun x => get M (fst x) (fst (snd x)) (snd (snd x))) [(7, (1, 1)); (8, (0, 2)); (9, (0, 0))].
Example C41_nonvacuous :
  option_map reads (run anji_new [SetMax (Some 2); Set_ 7 1 1 5%Z; Set_ 8 0 2 6%Z; Set_ 7 0 0 1%Z; Set_ 9 0 0 4%Z]) = Some [99; 6; 4]%Z /\
  option_map reads (run anji_new [SetMax (Some 2); Visit 7 1 1 [(1, 1, 5%Z)]; Visit 8 2 0 [(0, 2, 6%Z)]; Visit 7 0 0 [(0, 0, 1%Z)]; Visit 7 5 1 []; Visit 9 0 0 []]) = Some [99; 6; 99]%Z.
Proof. split; vm_compute; reflexivity. Qed.
