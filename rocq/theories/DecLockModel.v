(** The locking of /repo/src/stack_dec/ThotDecoder.cc as a concurrent program.  Any number of threads, one decoder; every lock, unlock, test
    and shared update is one step, and steps of different threads interleave freely.  Computations that touch no lock or shared table are folded
    into the neighbouring step.  A mutex is identified by its name, so that growing std::vector<pthread_mutex_t> per_user_mut while one of its
    elements is locked (lines 531-536) is idealised as harmless; the state where it happens is exhibited in PropertiesLock.v.
    init_idx_data failing (exit(1), lines 514-516) is not modelled, nor is onlineTrainSentPair's early return before any lock (lines 1901-1906). *)
From Coq Require Import Arith List.
From Verif Require Import AMap DecLockSpec.
Import ListNotations.
(** the mutexes: atomic_op_mut, non_atomic_op_mut, user_id_to_idx_mut, preproc_mut, per_user_mut[i] *)
Inductive lockid := LA | LN | LU | LQ | LP (i : nat).
Definition lockid_dec : forall a b : lockid, {a = b} + {a <> b}.
Proof. decide equality; apply Nat.eq_dec. Defined.
(** where a thread is.  Translations: translateSentence 2163-2217, sentPairVerCov 2309-2364, startCat 2367-2441, addStrToPref 2444-2471, setPref 2556-2594,
    resetPrefix 2597-2626.  Exclusive operations: initUserPars 1032-1078, onlineTrainSentPair 1908-1998, trainEcm 2112-2160, clearTrans 2666-2694. *)
Inductive pc :=
| Idle
| TLockN (u : nat) (w : list access) | TInc (u : nat) (w : list access) | TUnlockN (u : nat) (w : list access) (* increase_non_atomic_ops_running 2873-2880 *)
| TLockU (u : nat) (w : list access) | TFind (u : nat) (w : list access) | TUnlockU (u i : nat) (w : list access) (* get_vecidx_for_user_id 497-542 *)
| TLockP (u i : nat) (w : list access)          (* pthread_mutex_lock(&per_user_mut[idx]) *)
| TBody (u i : nat) (w : list access)           (* holding per_user_mut[idx]; w: accesses still to do *)
| TWaitQ (u i : nat) (w : list access) | TInQ (u i : nat) (w : list access)     (* preprocLine / postprocLine 3229-3254 *)
| TWaitU (u i v : nat) (w : list access) | TInU (u i v : nat) (w : list access) | TOutU (u i : nat) (w : list access) (* a lookup inside the body: none in the code, allowed here *)
| TLockN2 (u : nat) | TDec (u : nat) | TSignal (u : nat) | TUnlockN2 (u : nat)   (* decrease_non_atomic_ops_running 2883-2899 *)
| XLockA (c : call) | XLockN (c : call)         (* pthread_mutex_lock(&atomic_op_mut); wait_on_non_atomic_op_cond 2846-2848 *)
| XTest (c : call)                              (* while(non_atomic_ops_running>0), line 2850 *)
| XBlocked (c : call)                           (* in pthread_cond_wait, not yet woken, mutex released *)
| XWoken (c : call)                             (* in pthread_cond_wait, woken, taking the mutex again *)
| XBody (c : call) (w : list access)            (* holding atomic_op_mut and non_atomic_op_mut *)
| XWaitQ (c : call) (w : list access) | XInQ (c : call) (w : list access)
| XWaitU (c : call) (v : nat) (w : list access) | XInU (c : call) (v : nat) (w : list access) | XOutU (c : call) (w : list access)
| XUnlockN (c : call) | XUnlockA (c : call)
| PLockA | PBody                                (* printModelsFeatImpl / printModelsLegacyImpl / printModelWeights 2706-2794 *)
| RLockU (u : nat) | RBody (u : nat) | RUnlockU (u : nat)  (* release_user_data 334-349 *)
| NLockU (u : nat) | NBody (u : nat).           (* user_id_new 310-331 *)
(** shared state: userIdToIdx, tdPerUserVarsVec.size(), idxDataReleased (true entries), non_atomic_ops_running; log is ghost *)
Record config := { thr : nat -> pc; lk : lockid -> option nat; cnt : nat; reg : list (nat * nat); nvec : nat; freed : list nat; log : list done }.
Definition upd (f : nat -> pc) t s := fun x => if Nat.eq_dec x t then s else f x.
Definition updl (f : lockid -> option nat) l s := fun x => if lockid_dec x l then s else f x.
Definition goto (C : config) t s := {| thr := upd (thr C) t s; lk := lk C; cnt := cnt C; reg := reg C; nvec := nvec C; freed := freed C; log := log C |}.
Definition set_cnt (C : config) n := {| thr := thr C; lk := lk C; cnt := n; reg := reg C; nvec := nvec C; freed := freed C; log := log C |}.
Definition set_lk (C : config) l o := {| thr := thr C; lk := updl (lk C) l o; cnt := cnt C; reg := reg C; nvec := nvec C; freed := freed C; log := log C |}.
Definition finish (C : config) t c b := {| thr := upd (thr C) t Idle; lk := lk C; cnt := cnt C; reg := reg C; nvec := nvec C; freed := freed C; log := log C ++ [(t, c, b)] |}.
(** pthread_mutex_lock: blocks (None) while somebody holds it, the caller included (default mutex) *)
Definition acquire (C : config) t l s : option config := match lk C l with None => Some (goto (set_lk C l (Some t)) t s) | Some _ => None end.
Definition release (C : config) t l s : option config := Some (goto (set_lk C l None) t s).
(** body of get_vecidx_for_user_id, lines 505-528: the slot of v, made if v is unknown *)
Definition find_slot (C : config) (v : nat) : config * nat :=
  match aget Nat.eq_dec v (reg C) with
  | Some i => (C, i)
  | None => ({| thr := thr C; lk := lk C; cnt := cnt C; reg := aset Nat.eq_dec v (nvec C) (reg C); nvec := S (nvec C); freed := freed C; log := log C |}, nvec C)
  end.
(** release_user_data lines 341-346, release_idx_data 472-494 *)
Definition free_slot (C : config) (v : nat) : config :=
  match aget Nat.eq_dec v (reg C) with
  | Some i => {| thr := thr C; lk := lk C; cnt := cnt C; reg := reg C; nvec := nvec C; freed := i :: freed C; log := log C |}
  | None => C
  end.
(** clearTrans lines 2674-2687 *)
Definition clear_all (C : config) : config :=
  {| thr := thr C; lk := lk C; cnt := cnt C; reg := []; nvec := 0; freed := []; log := log C |}.
(** pthread_cond_broadcast: every waiter is woken and must take the mutex again *)
Definition wake (f : nat -> pc) : nat -> pc := fun x => match f x with XBlocked c => XWoken c | s => s end.
Definition broadcast (C : config) := {| thr := wake (thr C); lk := lk C; cnt := cnt C; reg := reg C; nvec := nvec C; freed := freed C; log := log C |}.
Definition work_of (c : call) : list access := match c with Train w | InitUser w => w | _ => [] end.
Definition entry (c : call) : pc :=
  match c with
  | Translate u w => TLockN u w | Train _ | InitUser _ | Clear => XLockA c
  | Print => PLockA | Release u => RLockU u | IsNew u => NLockU u end.
(** the next step of thread t inside its call; None when it is outside any call or blocked *)
Definition act (t : nat) (C : config) : option config :=
  match thr C t with
  | Idle => None
  | TLockN u w => acquire C t LN (TInc u w)
  | TInc u w => Some (goto (set_cnt C (S (cnt C))) t (TUnlockN u w))
  | TUnlockN u w => release C t LN (TLockU u w)
  | TLockU u w => acquire C t LU (TFind u w)
  | TFind u w => let (C', i) := find_slot C u in Some (goto C' t (TUnlockU u i w))
  | TUnlockU u i w => release C t LU (TLockP u i w)
  | TLockP u i w => acquire C t (LP i) (TBody u i w)
  | TBody u i (Pre :: w) => Some (goto C t (TWaitQ u i w))
  | TBody u i (Find v :: w) => Some (goto C t (TWaitU u i v w))
  | TBody u i [] => release C t (LP i) (TLockN2 u)
  | TWaitQ u i w => acquire C t LQ (TInQ u i w)
  | TInQ u i w => release C t LQ (TBody u i w)
  | TWaitU u i v w => acquire C t LU (TInU u i v w)
  | TInU u i v w => let (C', _) := find_slot C v in Some (goto C' t (TOutU u i w))
  | TOutU u i w => release C t LU (TBody u i w)
  | TLockN2 u => acquire C t LN (TDec u)
  | TDec u => Some (goto (set_cnt C (pred (cnt C))) t (TSignal u))
  | TSignal u => let C' := if Nat.eq_dec (cnt C) 0 then broadcast C else C in Some (goto C' t (TUnlockN2 u))
  | TUnlockN2 u => Some (finish (set_lk C LN None) t (Translate u []) true)
  | XLockA c => acquire C t LA (XLockN c)
  | XLockN c => acquire C t LN (XTest c)
  | XTest c => if Nat.eq_dec (cnt C) 0 then Some (goto C t (XBody c (work_of c))) else Some (goto (set_lk C LN None) t (XBlocked c))
  | XBlocked c => None
  | XWoken c => acquire C t LN (XTest c)
  | XBody c (Pre :: w) => Some (goto C t (XWaitQ c w))
  | XBody c (Find v :: w) => Some (goto C t (XWaitU c v w))
  | XBody Clear [] => Some (goto (clear_all C) t (XUnlockN Clear))
  | XBody c [] => Some (goto C t (XUnlockN c))
  | XWaitQ c w => acquire C t LQ (XInQ c w)
  | XInQ c w => release C t LQ (XBody c w)
  | XWaitU c v w => acquire C t LU (XInU c v w)
  | XInU c v w => let (C', _) := find_slot C v in Some (goto C' t (XOutU c w))
  | XOutU c w => release C t LU (XBody c w)
  | XUnlockN c => release C t LN (XUnlockA c)
  | XUnlockA c => Some (finish (set_lk C LA None) t c true)
  | PLockA => acquire C t LA PBody
  | PBody => Some (finish (set_lk C LA None) t Print true)
  | RLockU u => acquire C t LU (RBody u)
  | RBody u => Some (goto (free_slot C u) t (RUnlockU u))
  | RUnlockU u => Some (finish (set_lk C LU None) t (Release u) true)
  | NLockU u => acquire C t LU (NBody u)
  | NBody u => Some (finish (set_lk C LU None) t (IsNew u) true)
  end.
(** what the environment of a thread may do: start a call, wake it for no reason (POSIX allows spurious wakeups), or make initUserPars
    leave through line 1064 "if(ret==THOT_ERROR) return THOT_ERROR;", which unlocks nothing *)
Inductive event := Act | Start (c : call) | Spurious | Fail.
Definition next (e : event) (t : nat) (C : config) : option config :=
  match e with
  | Act => act t C
  | Start c => match thr C t with Idle => Some (goto C t (entry c)) | _ => None end
  | Spurious => match thr C t with XBlocked c => Some (goto C t (XWoken c)) | _ => None end
  | Fail => match thr C t with XBody (InitUser w) [] => Some (finish C t (InitUser w) false) | _ => None end
  end.
Definition init : config := {| thr := fun _ => Idle; lk := fun _ => None; cnt := 0; reg := []; nvec := 0; freed := []; log := [] |}.
Inductive steps : config -> config -> Prop :=
| st_refl : forall C, steps C C
| st_step : forall C C' C'' e t, next e t C = Some C' -> steps C' C'' -> steps C C''.
Definition reachable (C : config) : Prop := steps init C.
(** schedules that only run the threads already inside a call, without spurious wakeups or failures *)
Fixpoint run (s : list nat) (C : config) : option config :=
  match s with [] => Some C | t :: r => match act t C with Some C' => run r C' | None => None end end.
(** executable schedules *)
Fixpoint exec (s : list (event * nat)) (C : config) : option config :=
  match s with [] => Some C | (e, t) :: r => match next e t C with Some C' => exec r C' | None => None end end.
(** the call thread t is working on with its locks held (its body) *)
Definition in_body (s : pc) : option call :=
  match s with
  | TBody u i w | TWaitQ u i w | TInQ u i w | TOutU u i w => Some (Translate u w)
  | TWaitU u i v w | TInU u i v w => Some (Translate u w)
  | XBody c _ | XWaitQ c _ | XInQ c _ | XOutU c _ | XWaitU c _ _ | XInU c _ _ => Some c
  | PBody => Some Print
  | _ => None
  end.
(** the slot a translation works on *)
Definition slot_in_use (s : pc) : option nat :=
  match s with TBody _ i _ | TWaitQ _ i _ | TInQ _ i _ | TOutU _ i _ | TWaitU _ i _ _ | TInU _ i _ _ => Some i | _ => None end.
