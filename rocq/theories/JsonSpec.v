(** What the tags of a JSON source sentence ask for. *)
From Coq Require Import Ascii String Arith List Bool.
From Verif Require Import TextSpec JsonModel.
Import ListNotations.
Open Scope nat_scope.
Local Notation seg := (nat * nat)%type.
Definition jblank (c : ascii) : bool := Ascii.eqb c " "%char || Ascii.eqb c "009"%char.
Definition jwords : str -> list str := words jblank.
(** the phrase pairs the user gave, in order: tags with both fields and a word in each *)
Definition usable (t : tag) : list (list str * list str) :=
  match t with
  | Tag (Some o) (Some t) => if (if list_eq_dec (list_eq_dec ascii_dec) (jwords o) [] then true else false) ||
                                (if list_eq_dec (list_eq_dec ascii_dec) (jwords t) [] then true else false) then [] else [(jwords o, jwords t)]
  | _ => []
  end.
Definition pairs_of (ts : list tag) : list (list str * list str) := flat_map usable ts.
(** the phrase occurs in the sentence after k words *)
Definition occurs_at (sent p : list str) (k : nat) : Prop := exists pre rest, sent = pre ++ p ++ rest /\ length pre = k.
(** from word [from] on, each phrase is given its first occurrence after the previous phrase; a phrase that has none ends the assignment *)
Inductive assigned (sent : list str) : nat -> list (list str * list str) -> list (seg * list str) -> Prop :=
| as_nil : forall from, assigned sent from [] []
| as_put : forall from p t r k l, from <= k -> occurs_at sent p k -> (forall k', from <= k' < k -> ~ occurs_at sent p k') ->
    assigned sent (k + length p) r l -> assigned sent from ((p, t) :: r) (((k + 1, k + length p), t) :: l)
| as_lost : forall from p t r, (forall k, from <= k -> ~ occurs_at sent p k) -> assigned sent from ((p, t) :: r) [].
(** all but the last word of the phrase are the last words of the sentence *)
Definition cut_off (sent p : list str) : Prop := exists pre w q, sent = pre ++ q /\ p = q ++ [w] /\ q <> [].
(** the phrases occur in the sentence in this order, without overlapping *)
Fixpoint in_order (sent : list str) (ps : list (list str)) : Prop :=
  match ps with [] => True | p :: r => exists gap rest, sent = gap ++ p ++ rest /\ in_order rest r end.
