(** Scripts of alignment operations: src/phrase_models/thot_alig_op.cc with -f and without -exhaustive.
    Simplified: the first file is not the output file; the members that AlignmentExtractor keeps from the alignment read last are reset between
    operations; atoi gets fields without leading tabs; the buffers of 512 characters are large enough. *)
From Coq Require Import Ascii String Arith List Bool.
From Verif Require Import TextSpec TextModel VocabSpec VocabModel GizaSpec GizaModel.
Import ListNotations.
Local Open Scope nat_scope.
Definition files := str -> option str.
(** fopen(name,"w"), fputs *)
Definition fput (name txt : str) (fs : files) : files := fun n => if str_dec name n then Some txt else fs n.
(** [Went fs t]: the files now, and what the extractor is reading; [Failed fs]: an error is reported *)
Inductive outcome := Went (fs : files) (t : str) | Failed (fs : files).
(** strcmp("-and",...) and the other options: thot_alig_op.cc:262-297 (the six conditions exclude each other) *)
Definition op_named (w : str) : option aop :=
  if str_dec w (T "-and") then Some Intersect else if str_dec w (T "-or") then Some Join else if str_dec w (T "-sum") then Some Sum else
  if str_dec w (T "-sym1") then Some Symmetr1 else if str_dec w (T "-sym2") then Some Symmetr2 else if str_dec w (T "-grd") then Some GrowDiagFinal else None.
(** an operation called with the name of the output file: AlignmentExtractor.cc:314-370 and its five likes.  The output file is emptied first (:323-331),
    then the operand is opened *)
Definition exec_op (out : str) (o : aop) (name : str) (tr : bool) (fs : files) (t : str) : option outcome :=
  let fs := fput out [] fs in
  match fs name with
  | None => Some (Failed fs)
  | Some fy => match align_op o tr t fy with None => None | Some r => Some (Went (fput out r fs) t) end
  end.
(** the body of while(awk.getln()): thot_alig_op.cc:254-334; None: undefined behaviour *)
Definition exec_line (out : str) (l : str) (fs : files) (t : str) : option outcome :=
  match get_NF SP l, dollar SP l 1, dollar SP l 2, dollar SP l 3 with
  | Some NF, Some d1, Some d2, Some d3 =>
      if NF =? 3 then
        match atoi d3 with
        | None => None
        | Some v =>
            match (match op_named d1 with None => Some (Went fs t) (* "Warning! invalid operation" *) | Some o => exec_op out o d2 (negb (v =? 0)) fs t end) with
            | None => None
            | Some (Failed fs) => Some (Failed fs)
            | Some (Went fs _) => match fs out with None => Some (Failed fs) | Some r => Some (Went fs r) end      (* the output file is copied and read next *)
            end
        end
      else if NF =? 0 then Some (Went fs t) else Some (Failed fs)
  | _, _, _, _ => None
  end.
Fixpoint exec_lines (out : str) (ls : list str) (fs : files) (t : str) : option outcome :=
  match ls with
  | [] => Some (Went fs t)
  | l :: r => match exec_line out l fs t with None => None | Some (Failed fs) => Some (Failed fs) | Some (Went fs t) => exec_lines out r fs t end
  end.
(** parseAlignOpsFile: thot_alig_op.cc:233-345; [t]: contents of the file of alignments given with -g *)
Definition parseAlignOpsFile (out script : str) (fs : files) (t : str) : option outcome :=
  match read_lines script with None => None | Some ls => exec_lines out ls fs t end.
