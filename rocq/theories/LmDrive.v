(** Sequences of calls on the language model of LmModel.v, and the vocabulary shared by the statements about it. *)
From Coq Require Import Ascii String Arith QArith List Bool.
From Verif Require Import LmSpec LmModel.
Import ListNotations.
Open Scope nat_scope.

(** calls on the count table and on the string interface, oldest first *)
Definition tab_op (o : lm_op nat) (t : tab) : option tab :=
  match o with OpIncr h w c => incrCountsOfEntry h w c t | OpSet h w cs cst => addTableEntry h w cs cst t end.
Fixpoint tab_run (ops : list (lm_op nat)) (t : tab) : option tab :=
  match ops with [] => Some t | o :: r => do t1 <- tab_op o t ; tab_run r t1 end.
Definition lm_op_str (o : lm_op string) (m : lm) : option lm :=
  match o with OpIncr h w c => incrCountsOfNgramStr w h c m | OpSet h w cs cst => addTableEntryHigh h w cs cst m end.
Fixpoint lm_run (ops : list (lm_op string)) (m : lm) : option lm :=
  match ops with [] => Some m | o :: r => do m1 <- lm_op_str o m ; lm_run r m1 end.
(** increments only *)
Definition incrs {W} (evs : list (event W)) : list (lm_op W) := map (fun e => OpIncr (fst (fst e)) (snd (fst e)) (snd e)) evs.
(** the words known to a new model *)
Definition specials : list string := [UNK_STR; BOS_STR; EOS_STR; SP_STR].
(** the word a code stands for is known *)
Definition known (e : enc) (w : string) : Prop := exists i, enc_find w e = Some i.
(** the codes of all known words *)
Definition vocab (e : enc) : list nat := map snd (h2x e).
(** the weights cover histories of up to [n] words *)
Definition weights_cover (j : jm) (n : nat) : Prop :=
  1 <= jbuckets j /\ (n + 1) * jbuckets j <= length (jweights j) /\ (jbuckets j = 1 \/ (0 < jsize j)%Q).
(** a line of a printed model: its n-gram, and the call made for it when it is loaded *)
Definition line_key (l : ngram_line) : list string * string := (fst (fst (fst l)), snd (fst (fst l))).
Definition line_op (l : ngram_line) : lm_op string := let '(hs, ht, cs, cst) := l in OpSet hs ht cs cst.
