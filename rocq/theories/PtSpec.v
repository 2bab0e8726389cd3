(** What a phrase table should contain after a history of calls, independently of any implementation. *)
From Coq Require Import ZArith NArith QArith List Bool.
Import ListNotations.
Open Scope Z_scope.

Definition phrase := list N.
Definition phrase_dec : forall a b : phrase, {a = b} + {a <> b} := list_eq_dec N.eq_dec.

(** Calls of the phrase-table interface.  Counts are integers. *)
Inductive pt_op :=
| PAdd (s t : phrase) (cs cst : Z)      (* addTableEntry(s,t,(cs,cst)) *)
| PIncr (s t : phrase) (c : Z)          (* incrCountsOfEntry(s,t,c) *)
| PAddSrc (s : phrase) (c : Z)          (* addSrcInfo(s,c) *)
| PAddSrcTrg (s t : phrase) (c : Z)     (* addSrcTrgInfo(s,t,c) *)
| PClear                                (* clear() *)
| PQuery (s t : phrase).                (* any query of the pair: cSrcTrg, infSrcTrg, pTrgGivenSrc, ... *)

(** Contents: a count for each source phrase and each pair (None: no entry), a total for each target phrase. *)
Record contents := { c_src : phrase -> option Z; c_trg : phrase -> Z; c_st : phrase -> phrase -> option Z }.
Definition no_contents : contents := {| c_src := fun _ => None; c_trg := fun _ => 0; c_st := fun _ _ => None |}.
Definition val (o : option Z) : Z := match o with Some z => z | None => 0 end.
Definition upd1 {A} (f : phrase -> A) (k : phrase) (v : A) : phrase -> A := fun k' => if phrase_dec k' k then v else f k'.
Definition upd2 {A} (f : phrase -> phrase -> A) (k l : phrase) (v : A) : phrase -> phrase -> A :=
  fun k' l' => if phrase_dec k' k then if phrase_dec l' l then v else f k' l' else f k' l'.
Definition op_effect (c : contents) (o : pt_op) : contents :=
  match o with
  | PAdd s t cs cst => {| c_src := upd1 (c_src c) s (Some cs); c_trg := upd1 (c_trg c) t (c_trg c t + cst); c_st := upd2 (c_st c) s t (Some cst) |}
  | PIncr s t n => {| c_src := upd1 (c_src c) s (Some (val (c_src c s) + n)); c_trg := upd1 (c_trg c) t (c_trg c t + n);
                      c_st := upd2 (c_st c) s t (Some (val (c_st c s t) + n)) |}
  | PAddSrc s n => {| c_src := upd1 (c_src c) s (Some n); c_trg := c_trg c; c_st := c_st c |}
  | PAddSrcTrg s t n => {| c_src := c_src c; c_trg := c_trg c; c_st := upd2 (c_st c) s t (Some n) |}
  | PClear => no_contents
  | PQuery _ _ => c
  end.
Definition contents_after (h : list pt_op) : contents := fold_left op_effect h no_contents.

(** addSrcTrgInfo is documented to require an existing source entry. *)
Fixpoint legal_from (c : contents) (h : list pt_op) : Prop :=
  match h with
  | [] => True
  | o :: r => (match o with PAddSrcTrg s _ _ => c_src c s <> None | _ => True end) /\ legal_from (op_effect c o) r
  end.
Definition legal (h : list pt_op) : Prop := legal_from no_contents h.

(** Phrases usable with the byte-key backends: words below 254^3, no reserved word, non-empty targets. *)
Definition good_src (s : phrase) : Prop := Forall (fun w => (w < 254 ^ 3)%N /\ w <> 2%N) s.
Definition good_trg (t : phrase) : Prop := good_src t /\ t <> [].
Definition good_op (o : pt_op) : Prop :=
  match o with
  | PAdd s t _ _ | PIncr s t _ | PAddSrcTrg s t _ | PQuery s t => good_src s /\ good_trg t
  | PAddSrc s _ => good_src s
  | PClear => True
  end.

(** In no prefix is addTableEntry called for a target whose total is already non-zero. *)
Fixpoint fresh_adds_from (c : contents) (h : list pt_op) : Prop :=
  match h with
  | [] => True
  | o :: r => (match o with PAdd _ t _ _ => c_trg c t = 0 | _ => True end) /\ fresh_adds_from (op_effect c o) r
  end.
Definition fresh_adds (h : list pt_op) : Prop := fresh_adds_from no_contents h.

Definition only_incr (h : list pt_op) : Prop := Forall (fun o => match o with PIncr _ _ _ | PQuery _ _ => True | _ => False end) h.
Definition positive_incr (h : list pt_op) : Prop := Forall (fun o => match o with PIncr _ _ c => 0 < c | PQuery _ _ => True | _ => False end) h.
(** targets counted together with s in a history, and conversely *)
Definition trg_with (s : phrase) (h : list pt_op) : list phrase :=
  flat_map (fun o => match o with PIncr s' t _ => if phrase_dec s' s then [t] else [] | _ => [] end) h.
Definition src_with (t : phrase) (h : list pt_op) : list phrase :=
  flat_map (fun o => match o with PIncr s t' _ => if phrase_dec t' t then [s] else [] | _ => [] end) h.
Definition sumZ (l : list Z) : Z := fold_right Z.add 0 l.

(** x = (s,(c(s),c(s,t))) is what getEntriesForTarget(t) should list: both counts stored and non-zero *)
Definition entry_of (c : contents) (t : phrase) (x : phrase * (Z * Z)) : Prop :=
  c_src c (fst x) = Some (fst (snd x)) /\ c_st c (fst x) t = Some (snd (snd x)) /\ fst (snd x) <> 0 /\ snd (snd x) <> 0.
(** x = (t,(c(t),c(s,t))) is what getEntriesForSource(s) should list *)
Definition entry_of_src (c : contents) (s : phrase) (x : phrase * (Z * Z)) : Prop :=
  c_trg c (fst x) = fst (snd x) /\ c_st c s (fst x) = Some (snd (snd x)) /\ fst (snd x) <> 0 /\ snd (snd x) <> 0.

Fixpoint sumQ (l : list Q) : Q := match l with [] => 0%Q | x :: l' => (x + sumQ l')%Q end.
