(** C155-C156: online learning of phrase pairs. *)
From Coq Require Import Ascii String ZArith List Bool Arith Lia.
From Verif Require Import TextSpec OnlModel OnlSpec OnlProofs.
Import ListNotations.
Local Open Scope nat_scope.

(** C155. With E >= 1 iterations and R a multiple of E, whatever the alignment models make of each sample at each visit: after any number of sentence
    pairs the phrase model has counted, on top of its initial counts, every phrase pair once for each of its occurrences in the LAST extraction of
    each sample; nothing of an earlier visit of a sample is left. *)
Theorem C155_counts_once : forall E R ex k0 len cnt0, 1 <= E -> R mod E = 0 -> exists st, train_run E R ex k0 len cnt0 = Some st /\
  forall p, o_cnt st p = (cnt0 p + once_each (rev (visit_log E R ex k0 len)) p (k0 + len))%Z.
Proof.
  intros E R ex k0 len cnt0 LE D. destruct (run_inv E R ex k0 cnt0 (k0 + len) len LE D (le_n _)) as (st & H & C & _). exists st. split; [exact H|exact C].
Qed.
Print Assumptions C155_counts_once.
(** C155: of any kind of training run, one iteration (the default, R = 0) counts just what was extracted from each sentence pair as it came. *)
Theorem C155_default : forall ex k0 len cnt0, exists st, train_run 1 0 ex k0 len cnt0 = Some st /\
  forall p, o_cnt st p = (cnt0 p + once_each (rev (map (fun k => (k, ex k 1%nat)) (seq k0 len))) p (k0 + len))%Z.
Proof.
  intros. destruct (C155_counts_once 1 0 ex k0 len cnt0 (le_n 1) eq_refl) as (st & H & C). exists st. split; [exact H|]. intro p. rewrite C.
  replace (visit_log 1 0 ex k0 len) with (map (fun k => (k, ex k 1%nat)) (seq k0 len)); [reflexivity|].
  unfold visit_log. generalize (seq k0 len). intro l. induction l as [|k l IH]; [reflexivity|]. cbn [map flat_map]. rewrite IH. unfold visits. cbn [seq flat_map app].
  change (0 / 1) with 0. rewrite Nat.mul_0_r, Nat.add_0_r, Nat.sub_0_r. reflexivity.
Qed.
Print Assumptions C155_default.
Open Scope string_scope.
Definition ab : ppair := ([list_ascii_of_string "a"], [list_ascii_of_string "b"]).
Definition cd : ppair := ([list_ascii_of_string "c"], [list_ascii_of_string "d"]).
Close Scope string_scope.
(** C155: when R is not a multiple of E, what is remembered of a sample is discarded before its last visit is over, and its phrase pairs are
    counted twice. *)
Theorem C155_uneven_refuted : exists E R ex k0 len cnt0 st p, 1 <= E /\ R mod E <> 0 /\ train_run E R ex k0 len cnt0 = Some st /\
  (o_cnt st p > cnt0 p + once_each (rev (visit_log E R ex k0 len)) p (k0 + len))%Z.
Proof.
  assert (H : match train_run 2 3 (fun _ _ => [ab]) 0 4 (fun _ => 0%Z) with
              | Some st => (once_each (rev (visit_log 2 3 (fun _ _ => [ab]) 0 4)) ab 4 <? o_cnt st ab)%Z
              | None => false end = true) by (vm_compute; reflexivity).
  destruct (train_run 2 3 (fun _ _ => [ab]) 0 4 (fun _ => 0%Z)) as [st|] eqn:R; [|discriminate]. apply Z.ltb_lt in H.
  exists 2, 3, (fun _ _ => [ab]), 0, 4, (fun _ => 0%Z), st, ab. split; [lia|]. split; [discriminate|]. split; [exact R|]. change (0 + 4) with 4. lia.
Qed.
Print Assumptions C155_uneven_refuted.
(** C155: E = 0 divides by zero at the first sentence pair. *)
Theorem C155_no_iterations_refuted : forall R ex k st, trainAligModel 0 R ex k st = None.
Proof. reflexivity. Qed.
Print Assumptions C155_no_iterations_refuted.
(** two iterations two sentences apart, the pair (a,b) extracted at first and (c,d) at the second visit: sample 0 has moved to (c,d), 1 and 2 count (a,b) *)
Example C155_nonvacuous : exists st, train_run 2 4 (fun _ i => if i =? 1 then [cd] else [ab]) 0 3 (fun _ => 0%Z) = Some st /\ o_cnt st ab = 2%Z /\ o_cnt st cd = 1%Z.
Proof.
  assert (H : match train_run 2 4 (fun _ i => if i =? 1 then [cd] else [ab]) 0 3 (fun _ => 0%Z) with
              | Some st => ((o_cnt st ab =? 2) && (o_cnt st cd =? 1))%Z | None => false end = true) by (vm_compute; reflexivity).
  destruct (train_run _ _ _ _ _ _) as [st|]; [|discriminate]. apply andb_true_iff in H. destruct H as [H1 H2]. apply Z.eqb_eq in H1, H2. now exists st.
Qed.

(** C156. With E >= 1 and R a multiple of E: sample n is trained on just at the arrivals of the samples n, n + R/E, ..., n + (E-1)*R/E. *)
Theorem C156_schedule : forall E R ex n k, 1 <= E -> R mod E = 0 -> In n (map fst (visits E R ex k)) <-> exists j, j < E /\ k = n + j * (R / E).
Proof. exact visits_when. Qed.
Print Assumptions C156_schedule.
(** C156: a new sentence pair is learned from as it arrives. *)
Theorem C156_at_once : forall E R ex k, 1 <= E -> R mod E = 0 -> In k (map fst (visits E R ex k)).
Proof. intros. apply C156_schedule; auto. exists 0. split; [lia|]. now rewrite Nat.add_0_r. Qed.
Print Assumptions C156_at_once.
(** C156: with E = 2 and R = 3 the sentence pair just given is not learned from on arrival, whatever came before. *)
Theorem C156_uneven_refuted : forall ex k, ~ In k (map fst (visits 2 3 ex k)).
Proof.
  intros ex k H. unfold visits in H. change (3 / 2) with 1 in H. cbn [seq flat_map] in H. rewrite app_nil_r in H. rewrite map_app in H. apply in_app_or in H.
  destruct H as [H|H]; match type of H with context [if ?a <=? ?b then _ else _] => destruct (Nat.leb_spec a b) end; cbn in H; try contradiction; lia.
Qed.
Print Assumptions C156_uneven_refuted.
Example C156_nonvacuous : 6 mod 3 = 0 /\ map fst (visits 3 6 (fun _ _ => []) 7) = [3; 5; 7] /\ map fst (visits 3 6 (fun _ _ => []) 2) = [0; 2].
Proof. repeat split. Qed.
