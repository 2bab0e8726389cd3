(** Edit distance: C13, C14, C15. *)
From Coq Require Import Arith ZArith List Bool Lia.
From Verif Require Import EditDistSpec EditDistModel EditDistProofs.
Import ListNotations.
Open Scope Z_scope.

(** C13: whatever the costs, the returned number is the cost of the cheapest edit script from x to y. *)
Theorem C13_edit_distance_is_cheapest_script : forall (A : Type) (eqb : A -> A -> bool), (forall a b, eqb a b = true <-> a = b) ->
  forall (hitc subc : A -> A -> Z) (insc delc : A -> Z) (d0 : A) (x y : list A),
  cheapest hitc subc insc delc x y (calculateEditDist eqb hitc subc insc delc d0 x y).
Proof. exact @ed_cheapest. Qed.
Print Assumptions C13_edit_distance_is_cheapest_script.

Example C13_nonvacuous :
  calculateEditDist Nat.eqb (fun _ _ => 0) (fun _ _ => 1) (fun _ => 1) (fun _ => 1) 0%nat [1;2;3;4]%nat [2;3;9;4;5]%nat = 3.
Proof. vm_compute. reflexivity. Qed.

(** C14: the reported counts belong to one and the same script whose cost is the returned distance, they account for
    every element of both sequences, and with constant costs their weighted sum is the distance. *)
Theorem C14_operation_counts_of_a_cheapest_script : forall (A : Type) (eqb : A -> A -> bool), (forall a b, eqb a b = true <-> a = b) ->
  forall (hitc subc : A -> A -> Z) (insc delc : A -> Z) (d0 : A) (x y : list A),
  exists ops, calculateEditDistOps eqb hitc subc insc delc d0 x y =
    Some (calculateEditDist eqb hitc subc insc delc d0 x y,
          (count_op HIT_OP ops, count_op INS_OP ops, count_op SUBST_OP ops, count_op DEL_OP ops)) /\
  script hitc subc insc delc ops x y (calculateEditDist eqb hitc subc insc delc d0 x y) /\
  length x = (count_op HIT_OP ops + count_op SUBST_OP ops + count_op DEL_OP ops)%nat /\
  length y = (count_op HIT_OP ops + count_op SUBST_OP ops + count_op INS_OP ops)%nat.
Proof. exact @ed_ops. Qed.
Print Assumptions C14_operation_counts_of_a_cheapest_script.

Theorem C14_weighted_counts_sum_to_distance : forall (A : Type) (eqb : A -> A -> bool), (forall a b, eqb a b = true <-> a = b) ->
  forall (hc sc ic dc : Z) (d0 : A) x y, exists h i s d,
  calculateEditDistOps eqb (fun _ _ => hc) (fun _ _ => sc) (fun _ => ic) (fun _ => dc) d0 x y =
    Some (calculateEditDist eqb (fun _ _ => hc) (fun _ _ => sc) (fun _ => ic) (fun _ => dc) d0 x y, (h, i, s, d)) /\
  calculateEditDist eqb (fun _ _ => hc) (fun _ _ => sc) (fun _ => ic) (fun _ => dc) d0 x y =
    hc * Z.of_nat h + ic * Z.of_nat i + sc * Z.of_nat s + dc * Z.of_nat d /\
  (h + s + d = length x)%nat /\ (h + s + i = length y)%nat.
Proof. exact ed_ops_weighted. Qed.
Print Assumptions C14_weighted_counts_sum_to_distance.

Example C14_nonvacuous :
  calculateEditDistOps Nat.eqb (fun _ _ => 0) (fun _ _ => 1) (fun _ => 1) (fun _ => 1) 0%nat [1;2;3;4]%nat [2;3;9;4;5]%nat
  = Some (3, (3, 2, 0, 1)%nat).
Proof. vm_compute. reflexivity. Qed.

(** C15: the prefix distance (the value the code leaves in the last cell and returns) is the minimum over the prefixes of x. *)
Theorem C15_prefix_distance : forall (A : Type) (eqb : A -> A -> bool), (forall a b, eqb a b = true <-> a = b) ->
  forall (hitc subc : A -> A -> Z) (insc delc : A -> Z) (d0 : A), (forall a, 0 <= delc a) ->
  forall x y : list A, y <> [] ->
  cheapest_prefix hitc subc insc delc x y (calculateEditDistPrefix eqb hitc subc insc delc d0 true x y).
Proof. exact @pref_cheapest. Qed.
Print Assumptions C15_prefix_distance.

Theorem C15_prefix_operations : forall (A : Type) (eqb : A -> A -> bool), (forall a b, eqb a b = true <-> a = b) ->
  forall (hitc subc : A -> A -> Z) (insc delc : A -> Z) (d0 : A), (forall a, 0 < delc a) ->
  forall x y : list A, y <> [] ->
  exists d ops x' r, calculateEditDistPrefixOps eqb hitc subc insc delc d0 true x y = Some (d, ops) /\
    x = x' ++ r /\ script hitc subc insc delc ops x' y d /\ cheapest_prefix hitc subc insc delc x y d.
Proof. exact (fun A eqb EQ h s i d d0 DP => @pref_ops_full A eqb EQ h s i d d0 (fun a => Z.lt_le_incl _ _ (DP a)) DP). Qed.
Print Assumptions C15_prefix_operations.

Theorem C15_without_prefix_operation_is_plain : forall (A : Type) (eqb : A -> A -> bool), (forall a b, eqb a b = true <-> a = b) ->
  forall (hitc subc : A -> A -> Z) (insc delc : A -> Z) (d0 : A) (x y : list A),
  cheapest hitc subc insc delc x y (calculateEditDistPrefix eqb hitc subc insc delc d0 false x y).
Proof. exact @nopref_plain. Qed.
Print Assumptions C15_without_prefix_operation_is_plain.

(** the empty y is the exception: every element of x is charged, although its empty prefix costs nothing *)
Theorem C15_empty_target_refuted : forall (A : Type) (eqb : A -> A -> bool)
  (hitc subc : A -> A -> Z) (insc delc : A -> Z) (d0 : A) (x : list A),
  calculateEditDistPrefix eqb hitc subc insc delc d0 true x [] = fold_right (fun a s => delc a + s) 0 x /\
  script hitc subc insc delc [] [] [] 0.
Proof. exact @pref_empty_full. Qed.
Print Assumptions C15_empty_target_refuted.

Example C15_nonvacuous :
  calculateEditDistPrefixOps Nat.eqb (fun _ _ => 0) (fun _ _ => 1) (fun _ => 1) (fun _ => 1) 0%nat true [1;2;3;4;5;6]%nat [1;9;3]%nat
  = Some (1, [HIT_OP; SUBST_OP; HIT_OP]) /\
  calculateEditDistPrefixOps Nat.eqb (fun _ _ => 0) (fun _ _ => 1) (fun _ => 1) (fun _ => 1) 0%nat true [1;2]%nat []
  = Some (2, [DEL_OP; DEL_OP]).
Proof. vm_compute. auto. Qed.
