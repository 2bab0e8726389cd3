(** C33-C36: the decoder's search stacks.  Vocabulary: StackSpec.v; code: StackModel.v. *)
From Coq Require Import ZArith Arith List Bool Lia Sorted Permutation.
From Verif Require Import AMap StackSpec StackModel.
From Verif Require StackClassProofs StackProofs MultiStackProofs MultiStack2Proofs MultiStack3Proofs.
Import ListNotations.
Open Scope nat_scope.

(** C33: after any pushes on an empty stack of size k >= 1 it holds, best first, a best-k selection of what was pushed. *)
Theorem C33_keeps_best : forall k hs, k <> 0 -> let l := snd (st_run k 0 hs []) in non_increasing (map snd l) /\ best_k k hs (map snd l).
Proof. exact StackProofs.keeps_best. Qed.
Print Assumptions C33_keeps_best.
(** among equal scores the ones pushed earlier are kept *)
Theorem C33_ties : forall k hs i j a b, k <> 0 -> let l := snd (st_run k 0 hs []) in
  In (i, a) l -> nth_error hs j = Some b -> ~ In (j, b) l -> (hscore b < hscore a)%Z \/ (hscore b = hscore a /\ i < j).
Proof. exact StackProofs.ties_earlier. Qed.
Print Assumptions C33_ties.
(** push answers true exactly when the pushed hypothesis is in the stack afterwards *)
Theorem C33_push_result : forall k hs h, k <> 0 -> let l := snd (st_run k 0 hs []) in
  fst (st_pushIter k (length hs, h) l) = true <-> In (length hs, h) (snd (st_pushIter k (length hs, h) l)).
Proof. exact StackProofs.push_flag. Qed.
Print Assumptions C33_push_result.
(** after any mixture of pushes, pops and removals: the stack is sorted, bounded, and the next push keeps the best of what is there *)
Theorem C33_history : forall max ops h, max <> 0 -> let l := st_hist max 0 ops [] in
  non_increasing (map snd l) /\ length l <= max /\
  exists id, (fst (st_pushIter max (id, h) l) = true <-> In (id, h) (snd (st_pushIter max (id, h) l))) /\ ~ In (id, h) l /\
             best_k max (h :: map snd l) (map snd (snd (st_pushIter max (id, h) l))).
Proof. exact StackProofs.hist_push. Qed.
Print Assumptions C33_history.
(** top and last are a best and a worst element *)
Theorem C33_top_last : forall max ops n, max <> 0 -> let l := st_hist max 0 ops [] in In n l ->
  exists t b, st_top l = Some t /\ st_last l = Some b /\ (hscore (snd b) <= hscore (snd n) <= hscore (snd t))%Z.
Proof. exact StackProofs.top_last. Qed.
Print Assumptions C33_top_last.
(** a stack of capacity 0 refuses every push and stays empty *)
Theorem C33_capacity_zero : forall hs, st_run 0 0 hs [] = (repeat false (length hs), []).
Proof.
  intros hs. generalize 0 at 2. induction hs as [|h hs IH]; intros id; [reflexivity|]. cbn [st_run st_pushIter Nat.eqb]. cbn. rewrite IH. reflexivity.
Qed.
Print Assumptions C33_capacity_zero.
Definition H (sc : Z) (st : nat) (c : nat * nat) : hyp := {| hscore := sc; hstate := st; hclass := c; hdata := 0 |}.
Example C33_nonvacuous :
  map fst (snd (st_run 2 0 [H 5 0 (0,0); H 7 1 (0,0); H 5 2 (0,0); H 6 3 (0,0)] [])) = [1; 3] /\
  fst (st_run 2 0 [H 5 0 (0,0); H 7 1 (0,0); H 5 2 (0,0); H 6 3 (0,0)] []) = [true; true; false; true] /\
  st_hist 3 0 [SPush (H 5 0 (0,0)); SPush (H 7 1 (0,0)); SPop; SPush (H 9 2 (0,0)); SPush (H 1 3 (0,0)); SRemoveLast] [] = [(2, H 9 2 (0,0)); (0, H 5 0 (0,0))].
Proof. repeat split. Qed.

(** C34: with a fixed positive maximum size no history of calls leads to undefined behaviour; every recombination pointer designates a
    stored hypothesis; every sub-stack is sorted, bounded and contains only hypotheses of its class; what is stored was pushed;
    empty() tells whether anything is stored. *)
Theorem C34_safe : forall max ops, max <> 0 -> exists M, ms_run ops (ms_empty max) = Some M /\
  (forall i k id, aget Nat.eq_dec i (recinfo M) = Some (k, id) -> exists n, In n (stk M k) /\ fst n = id) /\
  (forall k, non_increasing (map snd (stk M k)) /\ length (stk M k) <= max /\ forall n, In n (stk M k) -> hclass (snd n) = k) /\
  (forall h, In h (stored M) -> In h (pushed ops)) /\ (ms_isempty M = true <-> stored M = []).
Proof. exact MultiStack3Proofs.safe. Qed.
Print Assumptions C34_safe.
(** if the class is determined by the state, no two stored hypotheses share a state and the stored one is a best one ever pushed with it *)
Theorem C34_unique : forall max ops M, max <> 0 -> classes_by_state ops -> ms_run ops (ms_empty max) = Some M ->
  NoDup (map hstate (stored M)) /\ forall h g, In h (stored M) -> In g (pushed ops) -> hstate g = hstate h -> (hscore g <= hscore h)%Z.
Proof. exact MultiStack3Proofs.unique. Qed.
Print Assumptions C34_unique.
(** and nothing but recombination discards hypotheses while there is room: every pushed state is represented by a best hypothesis *)
Theorem C34_complete : forall max hs M, length hs <= max -> classes_by_state (map Push hs) -> ms_run (map Push hs) (ms_empty max) = Some M ->
  forall h, In h hs -> exists g, In g (stored M) /\ hstate g = hstate h /\ (hscore h <= hscore g)%Z.
Proof. exact MultiStack3Proofs.complete. Qed.
Print Assumptions C34_complete.
(** the decoder's default class function: the number of covered source words, and whether there is any jump *)
Theorem C34_default_class : forall segs n, Forall (fun s => 1 <= fst s <= snd s /\ snd s <= n) segs -> ForallOrdPairs (fun s u => snd s < fst u \/ snd u < fst s) segs ->
  fst (seg_class01 segs) = length (filter (seg_covers segs) (seq 1 n)) /\
  snd (seg_class01 segs) <= 1 /\
  (snd (seg_class01 segs) = 0 <-> forall k s, nth_error segs k = Some s -> fst s = S (match k with 0 => 0 | S k' => snd (nth k' segs (0, 0)) end)).
Proof. exact StackClassProofs.class01_spec. Qed.
Print Assumptions C34_default_class.
(** finding: the decoder's default class function (covered words, 0/1 jumps) is not determined by what a state records of the source
    segmentation, the covered positions and the end of the last phrase ... *)
Theorem C34_default_class_refuted : exists s1 s2, (forall p, seg_covers s1 p = seg_covers s2 p) /\ seg_end s1 = seg_end s2 /\ seg_class01 s1 <> seg_class01 s2.
Proof.
  exists [(1,1);(2,2);(3,3)], [(2,2);(1,1);(3,3)]. split; [|split; [reflexivity|discriminate]].
  intro p. unfold seg_covers. cbn [existsb fst snd]. destruct ((1 <=? p) && (p <=? 1)), ((2 <=? p) && (p <=? 2)), ((3 <=? p) && (p <=? 3)); reflexivity.
Qed.
Print Assumptions C34_default_class_refuted.
(** ... and then two stored hypotheses do share a state *)
Theorem C34_shared_state_refuted : exists ops M, ms_run ops (ms_empty 10) = Some M /\ ~ NoDup (map hstate (stored M)).
Proof.
  exists [Push (H 5 1 (3,0)); Push (H 6 1 (3,1))]. eexists. split; [vm_compute; reflexivity|]. vm_compute. intro ND. inversion ND; subst. apply H2. simpl. auto.
Qed.
Print Assumptions C34_shared_state_refuted.
(** finding: lowering the maximum size between pushes leaves a dangling pointer behind; a later push of that state uses it *)
Theorem C34_shrinking_refuted : exists ops1 ops2 M, ms_run ops1 (ms_empty 3) = Some M /\ classes_by_state (ops1 ++ ops2) /\
  ms_run ops2 (setMaxStackSize 2 M) = None.
Proof.
  exists [Push (H 3 0 (0,0)); Push (H 2 1 (0,0)); Push (H 1 2 (0,0))], [Push (H 10 3 (0,0)); Push (H 4 2 (0,0))]. eexists.
  split; [vm_compute; reflexivity|]. split; [|vm_compute; reflexivity].
  apply StackProofs.classes_check. vm_compute. reflexivity.
Qed.
Print Assumptions C34_shrinking_refuted.
Example C34_nonvacuous :
  let ops := [Push (H 3 0 (1,0)); Push (H 2 1 (1,0)); Push (H 5 1 (1,0)); Push (H 4 2 (2,0)); Push (H 1 0 (1,0)); Push (H 9 3 (1,0)); Pop; SetBf true; Push (H 0 4 (1,0)); Pop; RemoveLast] in
  classes_by_state ops /\ exists M, ms_run ops (ms_empty 2) = Some M /\ stored M = [H 0 4 (1,0)].
Proof.
  split; [apply StackProofs.classes_check; vm_compute; reflexivity|eexists; split; vm_compute; reflexivity].
Qed.

(** C35: pop never fails on a non-empty multi-stack, removes exactly what it returns, and returns a best hypothesis of all in
    best-first mode and a best one of the lowest class in breadth-first mode. *)
Theorem C35_pop : forall max ops M, max <> 0 -> ms_run ops (ms_empty max) = Some M -> stored M <> [] ->
  exists h M', ms_pop M = Some (h, M') /\ Permutation (stored M) (h :: stored M') /\
    (bfirst M = false -> forall g, In g (stored M) -> (hscore g <= hscore h)%Z) /\
    (bfirst M = true -> forall g, In g (stored M) -> cls_lt (hclass h) (hclass g) \/ (hclass g = hclass h /\ (hscore g <= hscore h)%Z)).
Proof. exact MultiStack3Proofs.pop_best. Qed.
Print Assumptions C35_pop.
(** top agrees with that, except in best-first mode when nothing scores above a default hypothesis *)
Theorem C35_top : forall max ops M dflt, max <> 0 -> ms_run ops (ms_empty max) = Some M -> stored M <> [] ->
  exists h, ms_top dflt M = Some h /\ In h (stored M) /\
    (bfirst M = false -> (exists g, In g (stored M) /\ (dflt < hscore g)%Z) -> forall g, In g (stored M) -> (hscore g <= hscore h)%Z) /\
    (bfirst M = true -> forall g, In g (stored M) -> cls_lt (hclass h) (hclass g) \/ (hclass g = hclass h /\ (hscore g <= hscore h)%Z)).
Proof. exact MultiStack3Proofs.top_best. Qed.
Print Assumptions C35_top.
(** finding: with all scores at or below that of a default hypothesis (0), top in best-first mode is not a best hypothesis *)
Theorem C35_top_refuted : exists ops M h g, ms_run ops (ms_empty 10) = Some M /\ bfirst M = false /\ ms_top 0 M = Some h /\ In g (stored M) /\ (hscore h < hscore g)%Z.
Proof.
  exists [Push (H (-5) 0 (1,0)); Push (H (-2) 1 (2,0))]. eexists. exists (H (-5) 0 (1,0)), (H (-2) 1 (2,0)). split; [vm_compute; reflexivity|].
  split; [reflexivity|]. split; [vm_compute; reflexivity|]. split; [vm_compute; auto|reflexivity].
Qed.
Print Assumptions C35_top_refuted.
(** removeLast removes a worst hypothesis of the highest class in breadth-first mode; in best-first mode (finding) it takes the worst
    of the lowest class, not the worst of all *)
Theorem C35_removeLast : forall max ops M, max <> 0 -> ms_run ops (ms_empty max) = Some M -> stored M <> [] ->
  exists h M', ms_removeLast M = Some M' /\ Permutation (stored M) (h :: stored M') /\
    (forall g, In g (stored M) -> hclass g = hclass h -> (hscore h <= hscore g)%Z) /\
    (bfirst M = true -> forall g, In g (stored M) -> ~ cls_lt (hclass h) (hclass g)) /\
    (bfirst M = false -> forall g, In g (stored M) -> ~ cls_lt (hclass g) (hclass h)).
Proof. exact MultiStack3Proofs.removeLast_worst. Qed.
Print Assumptions C35_removeLast.
Theorem C35_removeLast_worst_refuted : exists ops M M' g h, ms_run ops (ms_empty 10) = Some M /\ bfirst M = false /\ ms_removeLast M = Some M' /\
  Permutation (stored M) (h :: stored M') /\ In g (stored M) /\ (hscore g < hscore h)%Z.
Proof.
  exists [Push (H 8 0 (1,0)); Push (H 2 1 (2,0))]. eexists. eexists. exists (H 2 1 (2,0)), (H 8 0 (1,0)). split; [vm_compute; reflexivity|]. split; [reflexivity|]. split; [vm_compute; reflexivity|].
  split; [apply Permutation_refl|]. split; [vm_compute; auto|reflexivity].
Qed.
Print Assumptions C35_removeLast_worst_refuted.
Example C35_nonvacuous : exists M, ms_run [Push (H 3 0 (1,0)); Push (H 8 1 (2,1)); Push (H 5 2 (1,0))] (ms_empty 10) = Some M /\
  option_map fst (ms_pop M) = Some (H 8 1 (2,1)) /\ option_map fst (ms_pop (set_bf true M)) = Some (H 5 2 (1,0)) /\ ms_top 0 M = Some (H 8 1 (2,1)).
Proof. eexists. split; [vm_compute; reflexivity|]. split; [vm_compute; reflexivity|]. split; vm_compute; reflexivity. Qed.

(** C36: after any history the dictionary numbers the distinct states 0, 1, 2, ... in order of first use, and remembers the last
    score given to each. *)
Theorem C36_contents : forall hs, length (dict_run hs []) = length (first_uses (map hstate hs)) /\
  forall s, match aget Nat.eq_dec s (dict_run hs []) with
            | Some (i, sc) => nth_error (first_uses (map hstate hs)) i = Some s /\ last_score s hs = Some sc
            | None => ~ In s (map hstate hs)
            end.
Proof. intro hs. destruct (StackProofs.dict_contents hs) as (_ & A & B). exact (conj A B). Qed.
Print Assumptions C36_contents.
(** indices identify states and never change *)
Theorem C36_unique : forall hs s1 s2 i sc1 sc2, aget Nat.eq_dec s1 (dict_run hs []) = Some (i, sc1) -> aget Nat.eq_dec s2 (dict_run hs []) = Some (i, sc2) -> s1 = s2.
Proof. intro hs. destruct (StackProofs.dict_contents hs) as ((_ & _ & A) & _). exact A. Qed.
Print Assumptions C36_unique.
Theorem C36_stable : forall hs1 hs2 s i sc, aget Nat.eq_dec s (dict_run hs1 []) = Some (i, sc) -> exists sc', aget Nat.eq_dec s (dict_run (hs1 ++ hs2) []) = Some (i, sc').
Proof. exact StackProofs.dict_stable. Qed.
Print Assumptions C36_stable.
Example C36_nonvacuous :
  dict_run [H 3 7 (0,0); H 4 2 (0,0); H 1 7 (0,0)] [] = [(7, (0, 1%Z)); (2, (1, 4%Z))] /\ first_uses [7; 2; 7] = [7; 2].
Proof. split; reflexivity. Qed.
