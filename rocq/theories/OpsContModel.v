(** Scripts of alignment operations with -exhaustive: src/phrase_models/thot_alig_op.cc:70-127 (main) and :155-229 (parseAlignOpsFile for
    AlignmentContainer).  Simplified as in OpsModel. *)
From Coq Require Import Ascii String Arith List Bool.
From Verif Require Import TextSpec TextModel VocabSpec VocabModel GizaSpec GizaModel ContSpec ContModel OpsModel.
Import ListNotations.
Local Open Scope nat_scope.
(** [CWent c]: go on with the container c; [CFailed c]: an error is reported, the container is left as c *)
Inductive coutcome := CWent (c : cont) | CFailed (c : cont).
(** an operation of the container; a file that cannot be opened changes nothing: AlignmentContainer.cc:105-309 *)
Definition cont_exec (o : aop) (name : str) (tr : bool) (fs : files) (c : cont) : option coutcome :=
  match fs name with
  | None => Some (CFailed c)
  | Some fy => match cont_op (Some c) (o, tr, fy) with None => None | Some c' => Some (CWent c') end
  end.
(** the body of while(awk.getln()): :172-226 *)
Definition cont_line (l : str) (fs : files) (c : cont) : option coutcome :=
  match get_NF SP l, dollar SP l 1, dollar SP l 2, dollar SP l 3 with
  | Some NF, Some d1, Some d2, Some d3 =>
      if NF =? 3 then
        match atoi d3 with
        | None => None
        | Some v => match op_named d1 with None => Some (CWent c) (* "Warning! invalid operation" *) | Some o => cont_exec o d2 (negb (v =? 0)) fs c end
        end
      else if NF =? 0 then Some (CWent c) else Some (CFailed c)
  | _, _, _, _ => None
  end.
Fixpoint cont_lines (ls : list str) (fs : files) (c : cont) : option coutcome :=
  match ls with
  | [] => Some (CWent c)
  | l :: r => match cont_line l fs c with None => None | Some (CFailed c) => Some (CFailed c) | Some (CWent c) => cont_lines r fs c end
  end.
(** main with -exhaustive, -f and the compact output: extract, run the script, print; what parseAlignOpsFile returns is not looked at (:91).  Result:
    exit status 0 and the text of the output file *)
Definition exhaustive_main (gt : bool) (g script : str) (fs : files) : option str :=
  match extract gt g, read_lines script with
  | Some c, Some ls => match cont_lines ls fs c with None => None | Some (CWent c) => printCompact c | Some (CFailed c) => printCompact c end
  | _, _ => None
  end.
