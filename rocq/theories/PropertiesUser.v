(** C38: the user-name registry under concurrency.  Vocabulary: UserIdSpec.v; code: UserIdModel.v. *)
From Coq Require Import Ascii String Arith List Lia.
From Verif Require Import AMap UserIdSpec UserIdModel.
From Verif Require UserIdProofs.
Import ListNotations.
Open Scope nat_scope.

(** C38: in every state reachable by any interleaving of any number of threads, the answer to every finished call is (name, number) where
    number is the position of the name among the distinct names answered, in the order in which they first appeared. *)
Theorem C38_numbering : forall C, reachable C -> forall c u i, In (c, (u, i)) (log C) -> nth_error (names_in_order (log C)) i = Some u.
Proof. exact UserIdProofs.ids_right. Qed.
Print Assumptions C38_numbering.
(** equal names get equal numbers, different names different numbers *)
Theorem C38_unique : forall C, reachable C -> forall c1 u1 i1 c2 u2 i2,
  In (c1, (u1, i1)) (log C) -> In (c2, (u2, i2)) (log C) -> (u1 = u2 <-> i1 = i2).
Proof. exact UserIdProofs.same_iff. Qed.
Print Assumptions C38_unique.
(** idForUserName answers for the name it was asked *)
Theorem C38_asked_name : forall C, reachable C -> forall u v i, In (IdFor u, (v, i)) (log C) -> v = u.
Proof. exact UserIdProofs.asked. Qed.
Print Assumptions C38_asked_name.
(** a generated pair is new, and its name is the least unused decimal number *)
Theorem C38_generated_fresh : forall C, reachable C -> forall h1 u i h2, log C = h1 ++ (Gen, (u, i)) :: h2 ->
  (forall c v j, In (c, (v, j)) h1 -> v <> u /\ j <> i) /\ exists n, u = decimal n /\ forall k, k < n -> exists c j, In (c, (decimal k, j)) h1.
Proof. exact UserIdProofs.gen_fresh. Qed.
Print Assumptions C38_generated_fresh.
(** whoever holds the lock finishes its call without help, so no call is ever blocked for good by another *)
Theorem C38_calls_finish : forall C t, reachable C -> lock C = Some t ->
  exists C', solo t C C' /\ thr C' t = Idle /\ exists c r, log C' = log C ++ [(c, r)].
Proof. exact UserIdProofs.finishes. Qed.
Print Assumptions C38_calls_finish.
(** two threads; the second asks while the first is inside its call *)
Open Scope string_scope.
Definition ex_k1 := {| thr := upd (thr init) 1 (Wait (IdFor "0")); lock := None; smap := []; log := [] |}.
Definition ex_k2 := {| thr := upd (thr ex_k1) 1 (Look "0"); lock := Some 1; smap := []; log := [] |}.
Definition ex_k3 := {| thr := upd (thr ex_k2) 1 (Create "0"); lock := Some 1; smap := []; log := [] |}.
Definition ex_k4 := {| thr := upd (thr ex_k3) 2 (Wait Gen); lock := Some 1; smap := []; log := [] |}.
Definition ex_k5 := {| thr := upd (thr ex_k4) 1 (Leave (IdFor "0") ("0", 0)); lock := Some 1; smap := [("0", 0)]; log := [] |}.
Definition ex_k6 := {| thr := upd (thr ex_k5) 1 (Idle); lock := None; smap := [("0", 0)]; log := [(IdFor "0", ("0", 0))] |}.
Definition ex_k7 := {| thr := upd (thr ex_k6) 2 (Try 0); lock := Some 2; smap := [("0", 0)]; log := [(IdFor "0", ("0", 0))] |}.
Definition ex_k8 := {| thr := upd (thr ex_k7) 1 (Wait (IdFor "0")); lock := Some 2; smap := [("0", 0)]; log := [(IdFor "0", ("0", 0))] |}.
Definition ex_k9 := {| thr := upd (thr ex_k8) 2 (Try 1); lock := Some 2; smap := [("0", 0)]; log := [(IdFor "0", ("0", 0))] |}.
Definition ex_k10 := {| thr := upd (thr ex_k9) 2 (Leave Gen ("1", 1)); lock := Some 2; smap := [("0", 0); ("1", 1)]; log := [(IdFor "0", ("0", 0))] |}.
Definition ex_k11 := {| thr := upd (thr ex_k10) 2 (Idle); lock := None; smap := [("0", 0); ("1", 1)]; log := [(IdFor "0", ("0", 0)); (Gen, ("1", 1))] |}.
Definition ex_k12 := {| thr := upd (thr ex_k11) 1 (Look "0"); lock := Some 1; smap := [("0", 0); ("1", 1)]; log := [(IdFor "0", ("0", 0)); (Gen, ("1", 1))] |}.
Definition ex_k13 := {| thr := upd (thr ex_k12) 1 (Leave (IdFor "0") ("0", 0)); lock := Some 1; smap := [("0", 0); ("1", 1)]; log := [(IdFor "0", ("0", 0)); (Gen, ("1", 1))] |}.
Definition ex_k14 := {| thr := upd (thr ex_k13) 1 (Idle); lock := None; smap := [("0", 0); ("1", 1)]; log := [(IdFor "0", ("0", 0)); (Gen, ("1", 1)); (IdFor "0", ("0", 0))] |}.
Example C38_nonvacuous : exists C, reachable C /\ log C = [(IdFor "0", ("0", 0)); (Gen, ("1", 1)); (IdFor "0", ("0", 0))].
Proof.
  assert (R1 : reachable ex_k1) by exact (r_step init ex_k1 1 r_init (s_call 1 init (IdFor "0") eq_refl)).
  assert (R2 : reachable ex_k2) by exact (r_step ex_k1 ex_k2 1 R1 (s_lock 1 ex_k1 (IdFor "0") eq_refl eq_refl)).
  assert (R3 : reachable ex_k3) by exact (r_step ex_k2 ex_k3 1 R2 (s_new 1 ex_k2 "0" eq_refl eq_refl)).
  assert (R4 : reachable ex_k4) by exact (r_step ex_k3 ex_k4 2 R3 (s_call 2 ex_k3 Gen eq_refl)).
  assert (R5 : reachable ex_k5) by exact (r_step ex_k4 ex_k5 1 R4 (s_create 1 ex_k4 "0" eq_refl)).
  assert (R6 : reachable ex_k6) by exact (r_step ex_k5 ex_k6 1 R5 (s_unlock 1 ex_k5 (IdFor "0") ("0", 0) eq_refl)).
  assert (R7 : reachable ex_k7) by exact (r_step ex_k6 ex_k7 2 R6 (s_lock 2 ex_k6 Gen eq_refl eq_refl)).
  assert (R8 : reachable ex_k8) by exact (r_step ex_k7 ex_k8 1 R7 (s_call 1 ex_k7 (IdFor "0") eq_refl)).
  assert (R9 : reachable ex_k9) by exact (r_step ex_k8 ex_k9 2 R8 (s_used 2 ex_k8 0 0 eq_refl eq_refl)).
  assert (R10 : reachable ex_k10) by exact (r_step ex_k9 ex_k10 2 R9 (s_free 2 ex_k9 1 eq_refl eq_refl)).
  assert (R11 : reachable ex_k11) by exact (r_step ex_k10 ex_k11 2 R10 (s_unlock 2 ex_k10 Gen ("1", 1) eq_refl)).
  assert (R12 : reachable ex_k12) by exact (r_step ex_k11 ex_k12 1 R11 (s_lock 1 ex_k11 (IdFor "0") eq_refl eq_refl)).
  assert (R13 : reachable ex_k13) by exact (r_step ex_k12 ex_k13 1 R12 (s_found 1 ex_k12 "0" 0 eq_refl eq_refl)).
  assert (R14 : reachable ex_k14) by exact (r_step ex_k13 ex_k14 1 R13 (s_unlock 1 ex_k13 (IdFor "0") ("0", 0) eq_refl)).
  exists ex_k14. split; [exact R14|reflexivity].
Qed.
