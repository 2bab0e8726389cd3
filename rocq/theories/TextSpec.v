(** Words of a line. *)
From Coq Require Import List Ascii String.
Import ListNotations.

Definition str := list ascii.
(** text literal *)
Definition T (s : string) : str := list_ascii_of_string s.

(** the pieces between separators, and the non-empty ones among them *)
Fixpoint segments (sep : ascii -> bool) (s : str) : list str :=
  match s with
  | [] => [[]]
  | c :: s' => if sep c then [] :: segments sep s'
               else match segments sep s' with g :: gs => (c :: g) :: gs | [] => [[c]] end
  end.
Definition nonempty (t : str) : bool := match t with [] => false | _ => true end.
(** blanks: space (32) and horizontal tab (9) *)
Definition blank (c : ascii) : bool := (Ascii.eqb c (ascii_of_nat 32) || Ascii.eqb c (ascii_of_nat 9))%bool.
Definition words (sep : ascii -> bool) (s : str) : list str := filter nonempty (segments sep s).
