(** Model descriptors, word-graph handler files and segmentation-length tables: what the files mean. *)
From Coq Require Import Ascii String List Arith QArith.
From Verif Require Import TextSpec.
Import ListNotations.
Local Open Scope nat_scope.

Definition slash : ascii := "/"%char.
Definition blank_ch : ascii := " "%char.
Definition flds_of (l : str) : list str := words (fun c => Ascii.eqb c blank_ch) l.
(** one field of a line *)
Definition tok (w : str) : Prop := w <> [] /\ ~ In blank_ch w /\ ~ In (ascii_of_nat 10) w /\ ~ In (ascii_of_nat 0) w.
(** words separated by one blank *)
Fixpoint spaced (l : list str) : str := match l with [] => [] | [w] => w | w :: r => w ++ blank_ch :: spaced r end.

(** a model entry as the user thinks of it: library and its parameters, model file, status *)
Record dentry := mkde { d_init : list str; d_file : str; d_status : str }.
Definition dwords (e : dentry) : list str := d_init e ++ [d_file e; d_status e].
Definition dentry_ok (e : dentry) : Prop := d_init e <> [] /\ Forall tok (dwords e) /\ ~ In (T "#") (dwords e).

(** dictionary order *)
Definition dict_lt {A} (R : A -> A -> Prop) (a b : list A) : Prop :=
  (exists c r, b = a ++ c :: r) \/ exists p x y r s, a = p ++ x :: r /\ b = p ++ y :: s /\ R x y.
Definition char_lt (a b : ascii) : Prop := nat_of_ascii a < nat_of_ascii b.
Definition sent_lt : list str -> list str -> Prop := dict_lt (dict_lt char_lt).

(** the value a list of definitions gives to a key: the last one *)
Inductive last_def {K V} (k : K) : list (K * V) -> option V -> Prop :=
| ld_none : forall l, ~ In k (map fst l) -> last_def k l None
| ld_some : forall a b v, ~ In k (map fst b) -> last_def k (a ++ (k, v) :: b) (Some v).

(** segmentation lengths: observations (target length, number of segments) *)
Definition n_pair (t k : nat) (o : list (nat * nat)) : nat := length (filter (fun p => (fst p =? t) && (snd p =? k)) o).
Definition n_len (t : nat) (o : list (nat * nat)) : nat := length (filter (fun p => fst p =? t) o).
Definition sumQ (l : list Q) : Q := fold_right Qplus 0%Q l.
Definition qn (n : nat) : Q := inject_Z (Z.of_nat n).
