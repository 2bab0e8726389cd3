(** Histories of updates of a lexical table, and what they should leave in it. *)
From Coq Require Import NArith List Bool.
Import ListNotations.
Open Scope N_scope.

(** setLexNumer(s,t,f) or setLexDenom(s,f); floats are 32-bit patterns *)
Inductive lex_op := OpNum (s t f : N) | OpDen (s f : N).
(** all arguments are 32-bit values *)
Definition op_ok (o : lex_op) : Prop :=
  match o with OpNum s t f => s < 2^32 /\ t < 2^32 /\ f < 2^32 | OpDen s f => s < 2^32 /\ f < 2^32 end.
(** What a history of sets leaves in the table, read off the history itself. *)
Fixpoint last_num (s t : N) (ops : list lex_op) : option N :=
  match ops with
  | [] => None
  | o :: r => match last_num s t r with
              | Some f => Some f
              | None => match o with OpNum s' t' f => if (s =? s') && (t =? t') then Some f else None | _ => None end
              end
  end.
Fixpoint last_den (s : N) (ops : list lex_op) : option N :=
  match ops with
  | [] => None
  | o :: r => match last_den s r with
              | Some f => Some f
              | None => match o with OpDen s' f => if s =? s' then Some f else None | _ => None end
              end
  end.

