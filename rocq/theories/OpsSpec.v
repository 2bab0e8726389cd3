(** What a script of alignment operations stands for: a list of steps, each with an operation, the name of the other file and whether it is transposed. *)
From Coq Require Import Ascii String Arith List Bool.
From Verif Require Import TextSpec TextModel VocabSpec GizaSpec GizaModel OpsModel.
Import ListNotations.
Record step := mkstep { s_op : aop; s_file : str; s_tr : bool }.
Definition op_text (o : aop) : str :=
  T match o with Intersect => "-and" | Join => "-or" | Sum => "-sum" | Symmetr1 => "-sym1" | Symmetr2 => "-sym2" | GrowDiagFinal => "-grd" end.
Definition step_line (s : step) : str := op_text (s_op s) ++ SP :: s_file s ++ SP :: T (if s_tr s then "1" else "0").
(** the text of a script: one line for each step, a newline after each *)
Definition script_text (l : list step) : str := concat (map (fun s => step_line s ++ [NL]) l).
Definition clean_name (w : str) : Prop := w <> [] /\ ~ In SP w /\ ~ In NL w /\ ~ In NUL w.
(** the steps carried out one after the other lead from the alignments [t] to the alignments [r] *)
Inductive carried (fs : files) : list step -> str -> str -> Prop :=
| carried_none : forall t, carried fs [] t t
| carried_step : forall s l t u r fy, fs (s_file s) = Some fy -> align_op (s_op s) (s_tr s) t fy = Some u -> carried fs l u r -> carried fs (s :: l) t r.
(** the entries of the other files, by file name; what each step must do with the entries it is given (GizaSpec) *)
Inductive combined_all (ents : str -> list entry) : list step -> list entry -> list entry -> Prop :=
| all_none : forall a, combined_all ents [] a a
| all_step : forall s l a b c, zipped (combined (s_op s) (s_tr s)) a (ents (s_file s)) b -> combined_all ents l b c -> combined_all ents (s :: l) a c.
