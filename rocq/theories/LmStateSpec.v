(** Specification of sentence scores. *)
From Coq Require Import Arith List Reals.
From Verif Require Import LmSpec LmStateModel.
Import ListNotations.
Local Open Scope nat_scope.
Definition rsum (l : list R) : R := fold_right Rplus 0%R l.
(** natural-log score of a sentence: each word given the [order]-1 words before it (padded with the begin-of-sentence word), plus the
    end-of-sentence word after the last word *)
Definition sentence_lg (lgp : nat -> list nat -> R) (bos eos order : nat) (s : list nat) : R :=
  (rsum (map (fun i => lgp (nth i s 0%nat) (context bos (order - 1)%nat (firstn i s))) (seq 0 (length s))) + lgp eos (context bos (order - 1)%nat s))%R.
(** adding words one after another to a state *)
Fixpoint run_state {A} (ws st : list A) : option (list A) :=
  match ws with [] => Some st | w :: r => match addNextWordToState w st with Some st' => run_state r st' | None => None end end.
