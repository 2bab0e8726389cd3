(** Vocabulary for the estimates of the decoder: ways to cut a stretch of the source sentence into segments, the ways to complete a partial translation,
    and lists of translation options. *)
From Coq Require Import ZArith List Bool Arith Sorted.
From Verif Require Import DecSpec.
Import ListNotations.
Open Scope nat_scope.
(** [ss] cuts the words l..r into consecutive segments *)
Inductive tiles : nat -> nat -> list seg -> Prop :=
| tiles_one : forall l r, l <= r -> tiles l r [(l, r)]
| tiles_cons : forall l m r ss, l <= m -> tiles (m + 1) r ss -> tiles l r ((l, m) :: ss).
Definition total (value : nat -> nat -> Z) (ss : list seg) : Z := fold_right Z.add 0%Z (map (fun s => value (fst s) (snd s)) ss).
(** [v] is the best value of the ways to cut l..r *)
Definition best_tiling (value : nat -> nat -> Z) (l r : nat) (v : Z) : Prop :=
  (exists ss, tiles l r ss /\ total value ss = v) /\ forall ss, tiles l r ss -> (total value ss <= v)%Z.
(** [more] are segments that complete a translation of the segments [done] of a sentence of [n] words *)
Definition completes (n : nat) (done more : list seg) : Prop :=
  well_segmented n (done ++ more) /\ forall j, 1 <= j <= n -> covered (done ++ more) j.
(** the value of translating the words l..r as one segment: the best of its options; a word without options is copied as an unknown word; a longer
    segment without options is worth [worst] *)
Definition segment_value (maxlen : nat) (options : nat -> nat -> list (list nat)) (value : nat -> nat -> list nat -> Z) (unk worst : Z) (l r : nat) : Z :=
  match (if maxlen <? r - l + 1 then [] else options l r) with
  | [] => if l =? r then unk else worst
  | ts => fold_right Z.max worst (map (value l r) ts)
  end.
