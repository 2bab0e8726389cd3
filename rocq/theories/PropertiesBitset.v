(** C06-C10: fixed-size bit sets (coverage vectors).  [bs_value b] reads the stored words as one binary number;
    bit n of the set is bit n of that number. *)
From Coq Require Import Arith NArith List Bool Lia.
From Verif Require Import BitsetModel BitsetSpec BitsetProofs.
Import ListNotations.
Open Scope N_scope.

(** C06 *)
Theorem C06_set_changes_only_bit_n : forall nw b n, bs_wf nw b -> n < 32 * N.of_nat nw ->
  exists b', bs_set n true b = Some b' /\ bs_wf nw b' /\
    forall m, N.testbit (bs_value b') m = if n =? m then true else N.testbit (bs_value b) m.
Proof. exact set_frame. Qed.
Print Assumptions C06_set_changes_only_bit_n.
Theorem C06_reset_changes_only_bit_n : forall nw b n, bs_wf nw b -> n < 32 * N.of_nat nw ->
  exists b', bs_reset n b = Some b' /\ bs_set n false b = Some b' /\ bs_wf nw b' /\
    forall m, N.testbit (bs_value b') m = if n =? m then false else N.testbit (bs_value b) m.
Proof. exact reset_frame. Qed.
Print Assumptions C06_reset_changes_only_bit_n.
Theorem C06_test_reads_bit : forall nw b n, bs_wf nw b -> n < 32 * N.of_nat nw -> bs_test n b = Some (N.testbit (bs_value b) n).
Proof. exact test_ok. Qed.
Print Assumptions C06_test_reads_bit.
Theorem C06_reset_all_clears : forall nw, bs_wf nw (bs_reset_all nw) /\ forall m, N.testbit (bs_value (bs_reset_all nw)) m = false.
Proof. exact reset_all_ok. Qed.
Print Assumptions C06_reset_all_clears.
Theorem C06_set_all_sets : forall nw, bs_wf nw (bs_set_all nw) /\
  forall m, m < 32 * N.of_nat nw -> N.testbit (bs_value (bs_set_all nw)) m = true.
Proof. exact set_all_ok. Qed.
Print Assumptions C06_set_all_sets.
Theorem C06_ulong_roundtrip : forall nw u, (2 <= nw)%nat -> u < 2 ^ 64 ->
  exists b, bs_of_ulong nw u = Some b /\ bs_wf nw b /\ bs_value b = u /\ bs_to_ulong b = Some u.
Proof. exact of_ulong_ok. Qed.
Print Assumptions C06_ulong_roundtrip.
Example C06_nonvacuous : bs_wf 2 [5; 2^31] /\ bs_set 33 true [5; 2^31] = Some [5; 2^31 + 2] /\ bs_test 63 [5; 2^31] = Some true.
Proof. split; [split; [reflexivity|repeat constructor]|split; reflexivity]. Qed.

(** C07 *)
Theorem C07_or_pointwise : forall nw a b, bs_wf nw a -> bs_wf nw b -> bs_wf nw (bs_or a b) /\
  forall m, N.testbit (bs_value (bs_or a b)) m = (N.testbit (bs_value a) m || N.testbit (bs_value b) m)%bool.
Proof. exact or_frame. Qed.
Print Assumptions C07_or_pointwise.
Theorem C07_and_pointwise : forall nw a b, bs_wf nw a -> bs_wf nw b -> bs_wf nw (bs_and a b) /\
  forall m, N.testbit (bs_value (bs_and a b)) m = (N.testbit (bs_value a) m && N.testbit (bs_value b) m)%bool.
Proof. exact and_frame. Qed.
Print Assumptions C07_and_pointwise.
Theorem C07_xor_pointwise : forall nw a b, bs_wf nw a -> bs_wf nw b -> bs_wf nw (bs_xor a b) /\
  forall m, N.testbit (bs_value (bs_xor a b)) m = xorb (N.testbit (bs_value a) m) (N.testbit (bs_value b) m).
Proof. exact xor_frame. Qed.
Print Assumptions C07_xor_pointwise.
Theorem C07_equality_is_same_bits : forall nw a b, bs_wf nw a -> bs_wf nw b ->
  (bs_eq a b = true <-> forall m, N.testbit (bs_value a) m = N.testbit (bs_value b) m).
Proof. exact eq_frame. Qed.
Print Assumptions C07_equality_is_same_bits.
Example C07_nonvacuous : bs_wf 2 [5; 1] /\ bs_wf 2 [3; 1] /\ bs_or [5;1] [3;1] = [7;1] /\ bs_xor [5;1] [3;1] = [6;0] /\
  bs_eq [5;1] [5;2] = false.
Proof. repeat split; repeat constructor. Qed.

(** C08 *)
Theorem C08_order_is_numeric : forall nw a b, bs_wf nw a -> bs_wf nw b ->
  bs_lt nw a b = (bs_value a <? bs_value b) /\ bs_gt nw a b = (bs_value b <? bs_value a).
Proof. exact lt_ok. Qed.
Print Assumptions C08_order_is_numeric.
Theorem C08_strict_total_order : forall nw a b c, bs_wf nw a -> bs_wf nw b -> bs_wf nw c ->
  bs_lt nw a a = false /\
  (bs_lt nw a b = true -> bs_lt nw b c = true -> bs_lt nw a c = true) /\
  ((bs_lt nw a b = true /\ bs_lt nw b a = false /\ bs_eq a b = false) \/
   (bs_lt nw a b = false /\ bs_lt nw b a = true /\ bs_eq a b = false) \/
   (bs_lt nw a b = false /\ bs_lt nw b a = false /\ bs_eq a b = true)) /\
  bs_gt nw a b = bs_lt nw b a.
Proof. exact order_ok. Qed.
Print Assumptions C08_strict_total_order.
Example C08_nonvacuous : bs_wf 2 [5; 1] /\ bs_wf 2 [4; 2] /\ bs_lt 2 [5;1] [4;2] = true.
Proof. repeat split; repeat constructor. Qed.

(** C09 *)
Theorem C09_increment : forall nw b, bs_wf nw b ->
  bs_wf nw (bs_incr b) /\ bs_value (bs_incr b) = (bs_value b + 1) mod 2 ^ (32 * N.of_nat nw).
Proof. exact incr_ok. Qed.
Print Assumptions C09_increment.
(** operator+ adds when no word of the right operand has its top bit set and no left word can absorb a carry into overflow *)
Theorem C09_plus_when_small : forall nw a b, bs_wf nw a -> bs_wf nw b ->
  Forall (fun w => w < 2 ^ 31) b -> Forall (fun w => w < 2 ^ 32 - 1) (tl a) ->
  bs_wf nw (bs_plus a b) /\ bs_value (bs_plus a b) = (bs_value a + bs_value b) mod 2 ^ (32 * N.of_nat nw).
Proof. exact plus_ok'. Qed.
Print Assumptions C09_plus_when_small.
(** FINDING: operator+ drops the carry when only the right word has its top bit set *)
Theorem C09_plus_refuted : exists a b, bs_wf 2 a /\ bs_wf 2 b /\
  bs_value (bs_plus a b) <> (bs_value a + bs_value b) mod 2 ^ (32 * N.of_nat 2) /\
  bs_value (bs_plus b a) = (bs_value a + bs_value b) mod 2 ^ (32 * N.of_nat 2).
Proof. exact plus_refuted. Qed.
Print Assumptions C09_plus_refuted.
Example C09_nonvacuous : bs_incr [2^32-1; 2^32-1; 7] = [0;0;8] /\ bs_plus [2^32-1; 3] [1; 4] = [0; 8].
Proof. split; reflexivity. Qed.

(** C10 *)
Theorem C10_shift_right : forall nw b k, bs_wf nw b -> bs_wf nw (bs_shr nw k b) /\
  forall i, N.testbit (bs_value (bs_shr nw k b)) i = N.testbit (bs_value b) (i + k).
Proof. exact shr_frame. Qed.
Print Assumptions C10_shift_right.
Theorem C10_count : forall nw b J, bs_wf nw b -> J <= 32 * N.of_nat nw -> bs_count J b = Some (ones_below (N.to_nat J) (bs_value b)).
Proof. exact count_ok. Qed.
Print Assumptions C10_count.
(** reading past the array is what happens for J beyond the stored words *)
Theorem C10_count_beyond_words_refuted : forall nw b J, bs_wf nw b -> 32 * N.of_nat nw < J -> bs_count J b = None.
Proof. exact count_oob. Qed.
Print Assumptions C10_count_beyond_words_refuted.
Example C10_nonvacuous : bs_wf 3 [2^31; 6; 1] /\ bs_shr 3 33 [2^31; 6; 1] = [2^31 + 3; 0; 0] /\ bs_count 35 [2^31; 6; 1] = Some 3.
Proof. split; [split; [reflexivity|repeat constructor]|split; reflexivity]. Qed.
