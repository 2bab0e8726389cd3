(** The translations among which the decoder chooses, independently of the search. *)
From Coq Require Import ZArith List Bool Arith.
From Verif Require Import DecSpec FeatSpec.
Import ListNotations.
Open Scope nat_scope.
Section S.
Variable n : nat.
Variable may_translate : nat -> nat -> list nat -> Prop.   (* segment l..r, phrase *)
Variable U : nat.                                          (* words skipped at most *)
(** sequences of translated segments: each one lies in a stretch of untranslated words, skips at most [U] words of it and gets one of its translations *)
Inductive derivation : list (seg * list nat) -> Prop :=
| der_null : derivation []
| der_ext : forall ps g a b phr, derivation ps -> is_gap n (covered (map fst ps)) g -> fst g <= a <= b -> b <= snd g -> a - fst g <= U -> may_translate a b phr ->
    derivation (ps ++ [((a, b), phr)]).
Definition full (ps : list (seg * list nat)) : Prop := forall j, 1 <= j <= n -> covered (map fst ps) j.
End S.
