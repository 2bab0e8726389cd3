(** BLEU counts: /repo/src/stack_dec/bleu.cc.  Words are only compared, so they are any type with decidable equality.  None is an
    out-of-range vector access or (calc_bleuf) THOT_ERROR.  The counts are unsigned/float in the code: wrap-around and the loss of
    float precision above 2^24 matches are not modelled. *)
From Coq Require Import List Arith Bool.
Import ListNotations.
Section S.
Variable A : Type.
Variable eqd : forall x y : A, {x = y} + {x <> y}.
(** bleu.cc:215-223, the loop over k; None: out of range *)
Fixpoint match_from (sys ref : list A) (i j : nat) (k n : nat) : option bool :=
  match n with
  | 0 => Some true
  | S n' => match nth_error sys (i + k), nth_error ref (j + k) with
            | Some a, Some b => if eqd a b then match_from sys ref i j (S k) n' else Some false
            | _, _ => None
            end
  end.
(** bleu.cc:213-230, the loop over j from [j]; [matched] are the flags of j, j+1, ...: None if one was matched *)
Fixpoint loop_j (sys ref : list A) (n i j : nat) (matched : list bool) : option (bool * list bool) :=
  match matched with
  | [] => Some (false, [])
  | m :: r => match match_from sys ref i j 0 n with
              | None => None
              | Some eq => if eq && negb m then Some (true, true :: r)
                           else match loop_j sys ref n i (S j) r with Some (b, r') => Some (b, m :: r') | None => None end
              end
  end.
(** bleu.cc:211-231, the loop over i: [todo] positions left from [i] *)
Fixpoint loop_i (sys ref : list A) (n : nat) (todo i : nat) (matched : list bool) (prec : nat) : option nat :=
  match todo with
  | 0 => Some prec
  | S t => match loop_j sys ref n i 0 matched with
           | None => None
           | Some (b, matched') => loop_i sys ref n t (S i) matched' (if b then S prec else prec)
           end
  end.
(** bleu.cc:186-232 prec_n: (prec, total) *)
Definition prec_n (ref sys : list A) (n : nat) : option (nat * nat) :=
  let total := if length sys <? n then 0 else length sys - n + 1 in
  let reftotal := if length ref <? n then 0 else length ref - n + 1 in
  match loop_i sys ref n total 0 (repeat false reftotal) 0 with
  | None => None
  | Some p => Some (p, total)
  end.

(** bleu.cc:93-151: accumulation over the sentences for n = 1..MAX_N (4, bleu.h:44); one (matches, total) pair per n, and the word counts *)
Definition MAX_N := 4.
Fixpoint add_all (ref sys : list A) (n : nat) (acc : list (nat * nat)) : option (list (nat * nat)) :=
  match acc with
  | [] => Some []
  | (p, t) :: r => match prec_n ref sys n with
                   | None => None
                   | Some (p1, t1) => match add_all ref sys (S n) r with Some r' => Some ((p + p1, t + t1) :: r') | None => None end
                   end
  end.
Record counts := { refWords : nat; sysWords : nat; acc : list (nat * nat) }.
Fixpoint corpus_loop (refs syss : list (list A)) (c : counts) : option counts :=
  match refs with
  | [] => Some c
  | ref :: refs' =>
    match syss with
    | [] => None
    | sys :: syss' =>
      match add_all ref sys 1 (acc c) with
      | None => None
      | Some a => corpus_loop refs' syss' {| refWords := refWords c + length ref; sysWords := sysWords c + length sys; acc := a |}
      end
    end
  end.
Definition corpus (refs syss : list (list A)) : option counts :=
  corpus_loop refs syss {| refWords := 0; sysWords := 0; acc := repeat (0, 0) MAX_N |}.
End S.
Arguments prec_n {A}. Arguments corpus {A}.
