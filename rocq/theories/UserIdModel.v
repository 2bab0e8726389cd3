(** /repo/src/stack_dec/UserNameToUserIdMap.cc as a concurrent program: any number of threads calling idForUserName and
    genNewUserNameIdPair; each statement that touches the shared map is one step, and steps of different threads interleave freely.
    int/unsigned overflow (2^31 users) is not modelled.  std::map<string,int> strToIntMap is an association list. *)
From Coq Require Import Ascii String Arith List.
From Verif Require Import AMap UserIdSpec.
Import ListNotations.
Open Scope nat_scope.
Definition umap := list (string * nat).
(** where a thread is *)
Inductive tstate :=
| Idle                          (* not in a call *)
| Wait (c : call)               (* at pthread_mutex_lock, lines 51 / 83 *)
| Look (u : string)             (* idForUserName, line 56: about to search *)
| Create (u : string)           (* lines 64-65: about to create the entry *)
| Try (n : nat)                 (* genNewUserNameIdPair, loop head line 92 with number = n *)
| Leave (c : call) (r : answer). (* at pthread_mutex_unlock, lines 69 / 123 *)
Record config := { thr : nat -> tstate; lock : option nat; smap : umap; log : list (call * answer) }.
Definition upd (f : nat -> tstate) t s := fun x => if Nat.eq_dec x t then s else f x.
Definition start (c : call) : tstate := match c with IdFor u => Look u | Gen => Try 0 end.
(** one step of thread t *)
Inductive step (t : nat) : config -> config -> Prop :=
| s_call : forall C c, thr C t = Idle -> step t C {| thr := upd (thr C) t (Wait c); lock := lock C; smap := smap C; log := log C |}
| s_lock : forall C c, thr C t = Wait c -> lock C = None -> step t C {| thr := upd (thr C) t (start c); lock := Some t; smap := smap C; log := log C |}
| s_found : forall C u i, thr C t = Look u -> aget string_dec u (smap C) = Some i ->
    step t C {| thr := upd (thr C) t (Leave (IdFor u) (u, i)); lock := lock C; smap := smap C; log := log C |}
| s_new : forall C u, thr C t = Look u -> aget string_dec u (smap C) = None ->
    step t C {| thr := upd (thr C) t (Create u); lock := lock C; smap := smap C; log := log C |}
| s_create : forall C u, thr C t = Create u ->
    step t C {| thr := upd (thr C) t (Leave (IdFor u) (u, length (smap C))); lock := lock C; smap := aset string_dec u (length (smap C)) (smap C); log := log C |}
| s_used : forall C n i, thr C t = Try n -> aget string_dec (decimal n) (smap C) = Some i ->
    step t C {| thr := upd (thr C) t (Try (S n)); lock := lock C; smap := smap C; log := log C |}
| s_free : forall C n, thr C t = Try n -> aget string_dec (decimal n) (smap C) = None ->
    step t C {| thr := upd (thr C) t (Leave Gen (decimal n, length (smap C))); lock := lock C;
                smap := aset string_dec (decimal n) (length (smap C)) (smap C); log := log C |}
| s_unlock : forall C c r, thr C t = Leave c r -> step t C {| thr := upd (thr C) t Idle; lock := None; smap := smap C; log := log C ++ [(c, r)] |}.
Definition init : config := {| thr := fun _ => Idle; lock := None; smap := []; log := [] |}.
Inductive reachable : config -> Prop :=
| r_init : reachable init
| r_step : forall C C' t, reachable C -> step t C C' -> reachable C'.
(** steps of one thread alone *)
Inductive solo (t : nat) : config -> config -> Prop :=
| solo_refl : forall C, solo t C C
| solo_step : forall C C' C'', step t C C' -> solo t C' C'' -> solo t C C''.
