(** Online learning of phrase pairs, one sentence pair at a time: trainAligModel and addNewTransOpts of src/stack_dec/StdFeatureHandler.cc.
    What the alignment models make of a sample (:445-451) is an arbitrary list of phrase pairs [ex k i] for the i-th iteration of the k-th call, as
    those models change all the time.  The phrase model is the sum of the increments it is given for each phrase pair (its table is C25-C28).
    The arithmetic on sample numbers (unsigned, converted to int) is exact: fewer than 2^31 samples. *)
From Coq Require Import Ascii String ZArith List Bool Arith.
From Verif Require Import TextSpec.
Import ListNotations.
Local Open Scope nat_scope.
Definition ppair := (list str * list str)%type.
Definition ppair_dec : forall a b : ppair, {a = b} + {a <> b}.
Proof. repeat decide equality. Defined.
Record onl := mkonl { o_cnt : ppair -> Z; o_store : list (list ppair) }.            (* vecVecInvPhPair *)
(** strIncrCountsOfEntry *)
Definition incr (c : Z) (f : ppair -> Z) (p : ppair) : ppair -> Z := fun q => if ppair_dec p q then (f q + c)%Z else f q.
(** while(vecVecInvPhPair.size()<=mapped_n) push_back: :457-458 *)
Definition grow (n : nat) (s : list (list ppair)) : list (list ppair) := s ++ repeat [] (S n - length s).
Definition set_at (n : nat) (v : list ppair) (s : list (list ppair)) : list (list ppair) := firstn n s ++ v :: skipn (S n) s.
(** addNewTransOpts: StdFeatureHandler.cc:422-489, with an incremental phrase model; map_n_am_suff_stats (:491-494) is the identity *)
Definition addNewTransOpts (vec : list ppair) (n : nat) (st : onl) : onl :=
  let s := grow n (o_store st) in
  let c := fold_left (incr (-1)) (nth n s []) (o_cnt st) in
  mkonl (fold_left (incr 1) vec c) (set_at n vec s).
(** trainAligModel: StdFeatureHandler.cc:307-361, from the number [k] of the new sample on.  Without E_par the loop is not entered and :350 divides
    by zero (None) *)
Definition trainAligModel (E R : nat) (ex : nat -> nat -> list ppair) (k : nat) (st : onl) : option onl :=
  if E =? 0 then None else
  let st := fold_left (fun st i => let n := (Z.of_nat k - Z.of_nat R + Z.of_nat (i * (R / E)))%Z in
                                   if (0 <=? n)%Z then addNewTransOpts (ex k i) (Z.to_nat n) st else st) (seq 1 E) st in
  let last_n := (Z.of_nat k - Z.of_nat ((E - 1) * (R / E)))%Z in
  Some (if (0 <=? last_n)%Z then
          let idx := Z.to_nat last_n in
          if (0 <? idx) && (idx <? length (o_store st)) then mkonl (o_cnt st) (set_at idx [] (o_store st)) else st
        else st).
(** the calls for the samples k0, k0+1, ..., k0+len-1; k0 samples were there before, cnt0 are the counts of the phrase model loaded *)
Definition train_run (E R : nat) (ex : nat -> nat -> list ppair) (k0 len : nat) (cnt0 : ppair -> Z) : option onl :=
  fold_left (fun o k => match o with None => None | Some st => trainAligModel E R ex k st end) (seq k0 len) (Some (mkonl cnt0 [])).
