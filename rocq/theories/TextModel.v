(** src/nlp_common/StrProcUtils.cc and AwkInputStream.cc.
    Strings are lists of characters; an index i into a string is modelled by the suffix starting at i, reading at the end of
    the string gives NUL (std::string and C strings).  Strings are assumed shorter than 2^32. *)
From Coq Require Import Ascii String Arith List Bool.
From Verif Require Import TextSpec.
Import ListNotations.

Definition SP : ascii := " "%char.
Definition TAB : ascii := "009"%char.
Definition NL : ascii := "010"%char.
Definition NUL : ascii := "000"%char.

(** while(p(s[i]) && i<size) ++i : characters passed over, rest *)
Fixpoint span (p : ascii -> bool) (s : str) : str * str :=
  match s with
  | [] => ([], [])
  | c :: s' => if p c then let (a, b) := span p s' in (c :: a, b) else ([], s)
  end.

(** stringToStringVector: StrProcUtils.cc:48-69; the do-while loop ends when i>=s.size() *)
Definition is_blank (c : ascii) : bool := Ascii.eqb c SP || Ascii.eqb c TAB.
Fixpoint s2v_loop (fuel : nat) (s : str) (vs : list str) : option (list str) :=
  match fuel with
  | O => None
  | S f =>
      let (aux, s1) := span (fun c => negb (is_blank c)) s in
      let vs := match aux with [] => vs | _ => vs ++ [aux] end in
      let (_, s2) := span is_blank s1 in
      match s2 with [] => Some vs | _ => s2v_loop f s2 vs end
  end.
Definition stringToStringVector (s : str) : option (list str) := s2v_loop (S (length s)) s [].
(** charItemsToVector: StrProcUtils.cc:30-45, on a C string (no NUL inside) *)
Fixpoint c2v_loop (fuel : nat) (s : str) (vs : list str) : option (list str) :=
  match s with
  | [] => Some vs
  | _ => match fuel with
         | O => None
         | S f =>
             let (_, s1) := span (fun c => Ascii.eqb c SP) s in
             let (aux, s2) := span (fun c => negb (Ascii.eqb c SP)) s1 in
             c2v_loop f s2 (match aux with [] => vs | _ => vs ++ [aux] end)
         end
  end.
Definition charItemsToVector (s : str) : option (list str) := c2v_loop (S (length s)) s [].
(** stringVectorToString: :72-86 *)
Definition stringVectorToString (v : list str) : str :=
  match v with [] => [] | w :: v' => fold_left (fun r x => r ++ SP :: x) v' w end.
(** isPrefix: :106-120 *)
Definition isPrefix (s1 s2 : str) : bool :=
  if length s2 <? length s1 then false
  else forallb (fun i => Ascii.eqb (nth i s1 NUL) (nth i s2 NUL)) (seq 0 (length s1)).
(** isPrefixStrVec: :123-143 *)
Definition str_eqb (a b : str) : bool := if list_eq_dec ascii_dec a b then true else false.
Definition isPrefixStrVec (v1 v2 : list str) : bool :=
  if length v2 <? length v1 then false
  else forallb (fun i => let a := nth i v1 [] in let b := nth i v2 [] in
         if str_eqb a b then true
         else if i =? length v1 - 1 then isPrefix a b else false) (seq 0 (length v1)).
(** getLastWord: :146-163; index loops downwards, both stop at i=0 *)
Fixpoint glw_skip (s : str) (i : nat) : nat :=
  match i with O => O | S i' => if Ascii.eqb (nth i s NUL) SP then glw_skip s i' else i end.
Fixpoint glw_take (s : str) (i : nat) (r : str) : str :=
  match i with O => r | S i' => if Ascii.eqb (nth i s NUL) SP then r else glw_take s i' (nth i s NUL :: r) end.
Definition getLastWord (s : str) : str :=
  match s with [] => [] | _ => glw_take s (glw_skip s (length s - 1)) [] end.
(** lastCharIsBlank: :166-175, removeLastBlank: :178-191, addBlank: :194-198 *)
Definition lastCharIsBlank (s : str) : bool := (0 <? length s) && Ascii.eqb (nth (length s - 1) s NUL) SP.
Definition removeLastBlank (s : str) : str := if lastCharIsBlank s then firstn (length s - 1) s else s.
Definition addBlank (s : str) : str := s ++ [SP].

(** ** AwkInputStream *)
(** what a char* shows of a buffer *)
Definition cstr (s : str) : str := fst (span (fun c => negb (Ascii.eqb c NUL)) s).
(** get_NF: AwkInputStream.cc:175-196 ([buf] is the C string, FS<>0) *)
Fixpoint nf_loop (FS : ascii) (fuel : nat) (s : str) (NF : nat) : option nat :=
  match s with
  | [] => Some NF
  | c :: r => match fuel with
    | O => None
    | S f => if Ascii.eqb c FS then nf_loop FS f (snd (span (fun c => Ascii.eqb c FS) s)) (S NF)
             else nf_loop FS f r (match r with [] => S NF | _ => NF end)
    end
  end.
Definition get_NF (FS : ascii) (buf : str) : option nat :=
  nf_loop FS (length buf) (snd (span (fun c => Ascii.eqb c FS) buf)) 0.
(** retrieveField: AwkInputStream.cc:199-239 (the first half recomputes NF); result: fieldStr *)
Fixpoint rf_loop (FS : ascii) (fuel n : nat) (s : str) (numFields : nat) (fieldStr : str) : option str :=
  match s with
  | [] => Some fieldStr
  | c :: r => match fuel with
    | O => None
    | S f => if Ascii.eqb c FS
             then (if n <? S numFields then Some fieldStr
                   else rf_loop FS f n (snd (span (fun c => Ascii.eqb c FS) s)) (S numFields) fieldStr)
             else let fieldStr := if n =? numFields then fieldStr ++ [c] else fieldStr in
                  let numFields' := match r with [] => if n =? numFields then S numFields else numFields | _ => numFields end in
                  if n <? numFields' then Some fieldStr else rf_loop FS f n r numFields' fieldStr
    end
  end.
Definition retrieveField (FS : ascii) (buf : str) (n : nat) : option str :=
  rf_loop FS (length buf) n (snd (span (fun c => Ascii.eqb c FS) buf)) 0 [].
(** dollar: AwkInputStream.cc:70-89 for an open stream *)
Definition dollar (FS : ascii) (buf : str) (n : nat) : option str :=
  match n with
  | O => Some buf
  | S n' => match get_NF FS buf with
            | None => None
            | Some NF => if NF <? n then Some [] else retrieveField FS buf n'
            end
  end.
(** getln: AwkInputStream.cc:50-67.  getline delivers everything up to and including the next newline or the end of the
    file; its last character is overwritten by NUL, whatever it is.  Result: C string of the line, rest of the file. *)
Definition getln (file : str) : option (str * str) :=
  match file with
  | [] => None
  | _ => let (a, b) := span (fun c => negb (Ascii.eqb c NL)) file in
         let rd := match b with [] => a | nl :: _ => a ++ [nl] end in
         let rest := match b with [] => [] | _ :: r => r end in
         Some (cstr (removelast rd), rest)
  end.
(** while(awk.getln()) *)
Fixpoint all_lines (fuel : nat) (file : str) : option (list str) :=
  match getln file with
  | None => Some []
  | Some (l, rest) => match fuel with O => None | S f => option_map (cons l) (all_lines f rest) end
  end.
Definition read_lines (file : str) : option (list str) := all_lines (length file) file.
