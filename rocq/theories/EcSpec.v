(** Word-level edit scripts whose word costs are character-level edit distances, independent of any table.
    Used by C92, C93. *)
From Coq Require Import Ascii ZArith List Bool.
From Verif Require Import EditDistSpec TextSpec.
Import ListNotations.
Open Scope Z_scope.

(** [str] is the type of character strings, list ascii (TextSpec) *)
Notation word := str (only parsing).

Section W.
(** cost of keeping, inserting, substituting, deleting one character *)
Variables hc ic sc dc : Z.

(** cheapest way of turning word [a] into word [b]; if [open], [b] is a word the user is still typing, so only some
    initial part of [a] has to become [b] *)
Definition wcost (open : bool) (a b : word) (d : Z) : Prop :=
  if open then cheapest_prefix (fun _ _ => hc) (fun _ _ => sc) (fun _ => ic) (fun _ => dc) a b d
  else cheapest (fun _ _ => hc) (fun _ _ => sc) (fun _ => ic) (fun _ => dc) a b d.

Definition is_nil {A} (l : list A) : bool := match l with [] => true | _ => false end.

(** [wscript open ops x y c]: the operations turn the sentence [x] into the sentence [y], whose last word is unfinished
    iff [open], and cost [c]: pairing two words costs their character-level distance, inserting or deleting a word
    inserts or deletes all its characters. *)
Inductive wscript (open : bool) : list eop -> list word -> list word -> Z -> Prop :=
| ws_nil : wscript open [] [] [] 0
| ws_pair : forall o ops a x b y d c, o = HIT_OP \/ o = SUBST_OP -> wcost (open && is_nil y) a b d ->
    wscript open ops x y c -> wscript open (o :: ops) (a :: x) (b :: y) (d + c)
| ws_ins : forall ops x b y c, wscript open ops x y c -> wscript open (INS_OP :: ops) x (b :: y) (ic * Z.of_nat (length b) + c)
| ws_del : forall ops a x y c, wscript open ops x y c -> wscript open (DEL_OP :: ops) (a :: x) y (dc * Z.of_nat (length a) + c).

Definition wcheapest (open : bool) (x y : list word) (d : Z) : Prop :=
  (exists ops, wscript open ops x y d) /\ forall ops c, wscript open ops x y c -> d <= c.
(** cheapest way of turning some initial part of [x] into [y] *)
Definition wcheapest_prefix (open : bool) (x y : list word) (d : Z) : Prop :=
  (exists x' r ops, x = x' ++ r /\ wscript open ops x' y d) /\
  forall x' r ops c, x = x' ++ r -> wscript open ops x' y c -> d <= c.
End W.

(** [extends open r p]: the sentence [r] has the sentence [p] at its beginning; if [open], the last word of [p] is unfinished
    and the word of [r] at its place only has to start with it. *)
Definition extends (open : bool) (r p : list word) : Prop :=
  exists p0 l t rest, p = p0 ++ [l] /\ r = p0 ++ (l ++ t) :: rest /\ (open = false -> t = []).
