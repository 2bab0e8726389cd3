(** C39, C40: the decoder under concurrent calls.  Vocabulary: DecLockSpec.v; code: DecLockModel.v.  "in_body (thr C t) = Some c" reads: thread t is
    past the locking prologue of call c and has not begun to leave it. *)
From Coq Require Import Arith List Lia.
From Verif Require Import AMap DecLockSpec DecLockModel.
From Verif Require DecLockProofs.
Import ListNotations.

(** C39: in every state reached by any interleaving of any number of threads, while training, user initialization or clearing runs, no other
    call at all that works on the models (translation, training, printing) is running *)
Theorem C39_exclusive : forall C, reachable C -> forall t t' c c',
  in_body (thr C t) = Some c -> exclusive c -> in_body (thr C t') = Some c' -> t' = t.
Proof. intros C R t t' c c' H X H'. exact (DecLockProofs.exclusion C R t t' c c' H H' X). Qed.
Print Assumptions C39_exclusive.
(** two translations of the same user never run at the same time *)
Theorem C39_same_user : forall C, reachable C -> forall t t' u w w',
  in_body (thr C t) = Some (Translate u w) -> in_body (thr C t') = Some (Translate u w') -> t' = t.
Proof. exact DecLockProofs.same_user. Qed.
Print Assumptions C39_same_user.
(** two translations, whoever their users are, never work on the same per-user data, also when the decoder is cleared in between *)
Theorem C39_own_data : forall C, reachable C -> forall t t' u u' w w' i,
  in_body (thr C t) = Some (Translate u w) -> in_body (thr C t') = Some (Translate u' w') ->
  slot_in_use (thr C t) = Some i -> slot_in_use (thr C t') = Some i -> t' = t.
Proof. exact DecLockProofs.own_slot. Qed.
Print Assumptions C39_own_data.

(** translations of different users do run in parallel; so do printing and translating: printing does not wait for translations *)
Definition enter (t u : nat) : list (event * nat) := (Start (Translate u [Pre]), t) :: repeat (Act, t) 7.
Definition leave (t : nat) : list (event * nat) := repeat (Act, t) 7.
Definition bodies (s : list (event * nat)) : option (list (option call)) := match exec s init with Some C => Some (map (fun t => in_body (thr C t)) [0; 1; 2]) | None => None end.
Lemma bodies_reach : forall s l, bodies s = Some l -> exists C, reachable C /\ map (fun t => in_body (thr C t)) [0; 1; 2] = l.
Proof. intros s l. unfold bodies. destruct (exec s init) as [C|] eqn:E; intros H; [|discriminate]. injection H as <-. exists C. split; [exact (DecLockProofs.exec_steps _ _ _ E)|reflexivity]. Qed.
Theorem C39_print_overlaps_translation : exists C, reachable C /\ map (fun t => in_body (thr C t)) [0; 1; 2] = [Some (Translate 7 [Pre]); Some (Translate 8 [Pre]); Some Print].
Proof. apply (bodies_reach (enter 0 7 ++ enter 1 8 ++ [(Start Print, 2); (Act, 2)])). vm_compute. reflexivity. Qed.
(** training that arrived during a translation starts its body after the translation ends *)
Example C39_nonvacuous_training : exists C, reachable C /\ map (fun t => in_body (thr C t)) [0; 1; 2] = [None; Some (Train [Find 7]); None].
Proof.
  apply (bodies_reach (enter 0 7 ++ (Start (Train [Find 7]), 1) :: repeat (Act, 1) 3 ++ leave 0 ++ repeat (Act, 0) 1 ++ repeat (Act, 1) 2)).
  vm_compute. reflexivity.
Qed.

(** what the locks do not give (findings).  Freeing the data of a user does not wait for a translation of that user: *)
Theorem C39_release_under_translation_refuted : exists C t u w i, reachable C /\
  in_body (thr C t) = Some (Translate u w) /\ slot_in_use (thr C t) = Some i /\ In i (freed C).
Proof.
  destruct (exec (enter 0 7 ++ (Start (Release 7), 1) :: repeat (Act, 1) 3) init) as [C|] eqn:E; [|vm_compute in E; discriminate].
  exists C, 0, 7, [Pre], 0. split; [exact (DecLockProofs.exec_steps _ _ _ E)|].
  vm_compute in E. injection E as <-. vm_compute. auto.
Qed.
Print Assumptions C39_release_under_translation_refuted.
(** nor does it forget the user: a translation started afterwards, alone in the decoder, works on the freed data *)
Theorem C39_translate_after_release_refuted : exists C t u w i, reachable C /\ (forall x, x <> t -> thr C x = Idle) /\
  In (1, Release u, true) (log C) /\ in_body (thr C t) = Some (Translate u w) /\ slot_in_use (thr C t) = Some i /\ In i (freed C).
Proof.
  destruct (exec (enter 0 7 ++ leave 0 ++ [(Act, 0)] ++ (Start (Release 7), 1) :: repeat (Act, 1) 3 ++ enter 0 7) init) as [C|] eqn:E; [|vm_compute in E; discriminate].
  exists C, 0, 7, [Pre], 0. split; [exact (DecLockProofs.exec_steps _ _ _ E)|].
  vm_compute in E. injection E as <-. split; [|vm_compute; auto].
  intros x Hx. destruct x as [|[|x]]; [congruence|reflexivity|reflexivity].
Qed.
Print Assumptions C39_translate_after_release_refuted.
(** the table of per-user mutexes grows (a new user is looked up) while one of its mutexes is locked *)
Theorem C39_table_grows_while_locked_refuted : exists C t i C', reachable C /\ lk C (LP i) = Some t /\
  (exists e t', next e t' C = Some C') /\ nvec C < nvec C' /\ lk C' (LP i) = Some t.
Proof.
  destruct (exec (enter 0 7 ++ (Start (Translate 8 []), 1) :: repeat (Act, 1) 4) init) as [C|] eqn:E; [|vm_compute in E; discriminate].
  destruct (next Act 1 C) as [C'|] eqn:E'; [|vm_compute in E; injection E as <-; vm_compute in E'; discriminate].
  exists C, 0, 0, C'. split; [exact (DecLockProofs.exec_steps _ _ _ E)|].
  split; [vm_compute in E; injection E as <-; reflexivity|]. split; [exists Act, 1; exact E'|].
  vm_compute in E; injection E as <-. vm_compute in E'; injection E' as <-. vm_compute. auto.
Qed.
Print Assumptions C39_table_grows_while_locked_refuted.
(** clearing empties the user table without taking its lock: another thread may be reading it *)
Theorem C39_clear_races_with_lookup_refuted : exists C, reachable C /\ in_body (thr C 0) = Some Clear /\ lk C LU = Some 1.
Proof.
  destruct (exec ((Start Clear, 0) :: repeat (Act, 0) 3 ++ [(Start (IsNew 7), 1); (Act, 1)]) init) as [C|] eqn:E; [|vm_compute in E; discriminate].
  exists C. split; [exact (DecLockProofs.exec_steps _ _ _ E)|]. vm_compute in E; injection E as <-. vm_compute. auto.
Qed.
Print Assumptions C39_clear_races_with_lookup_refuted.

(** C40: no deadlock.  As long as no user initialization has failed, whenever a call is unfinished some call can take a step that is neither a new call
    nor a spurious wakeup; *)
Theorem C40_progress : forall C, reachable C -> (forall t c, ~ In (t, c, false) (log C)) -> forall t, thr C t <> Idle -> exists t' C', act t' C = Some C'.
Proof. intros C R F t H. exact (DecLockProofs.progress C (DecLockProofs.reachable_inv C R) F t H). Qed.
Print Assumptions C40_progress.
(** no livelock: the running calls can take only finitely many steps, however they are scheduled; *)
Theorem C40_schedules_finite : forall C, reachable C -> exists n, forall s C', run s C = Some C' -> length s <= n.
Proof. exact DecLockProofs.schedules_finite. Qed.
Print Assumptions C40_schedules_finite.
(** so every schedule that goes on while it can ends with all calls finished. *)
Theorem C40_all_calls_finish : forall C, reachable C -> (forall t c, ~ In (t, c, false) (log C)) ->
  forall s C', run s C = Some C' -> (forall t, act t C' = None) -> forall t, thr C' t = Idle.
Proof. exact DecLockProofs.all_complete. Qed.
Print Assumptions C40_all_calls_finish.
(** After a failed user initialization nothing but consulting or releasing one user ever finishes again, whatever happens. *)
Theorem C40_failed_init_blocks_forever : forall C, reachable C -> forall t w, In (t, InitUser w, false) (log C) ->
  forall C', steps C C' -> exists l, log C' = log C ++ l /\ forall y c b, In (y, c, b) l -> user_table_only c.
Proof. exact DecLockProofs.stuck_forever. Qed.
Print Assumptions C40_failed_init_blocks_forever.
(** that is reachable, with a translation waiting *)
Theorem C40_deadlock_refuted : exists C, reachable C /\ In (0, InitUser [Find 7], false) (log C) /\ thr C 1 <> Idle /\ forall t, act t C = None.
Proof.
  destruct (exec ((Start (InitUser [Find 7]), 0) :: repeat (Act, 0) 7 ++ [(Fail, 0); (Start (Translate 7 []), 1)]) init) as [C|] eqn:E; [|vm_compute in E; discriminate].
  exists C. split; [exact (DecLockProofs.exec_steps _ _ _ E)|]. vm_compute in E; injection E as <-. split; [vm_compute; auto|].
  split; [vm_compute; discriminate|]. intros t. destruct t as [|[|t]]; reflexivity.
Qed.
Print Assumptions C40_deadlock_refuted.
(** a training call blocked in its wait, two translations inside *)
Example C40_nonvacuous : exists C, reachable C /\ (forall t c, ~ In (t, c, false) (log C)) /\ thr C 2 = XBlocked (Train [Find 7; Pre]) /\ cnt C = 2.
Proof.
  destruct (exec (enter 0 7 ++ enter 1 8 ++ (Start (Train [Find 7; Pre]), 2) :: repeat (Act, 2) 3) init) as [C|] eqn:E; [|vm_compute in E; discriminate].
  exists C. split; [exact (DecLockProofs.exec_steps _ _ _ E)|]. vm_compute in E; injection E as <-. split; [intros t c []|]. vm_compute. auto.
Qed.
