(** Alignment files: /repo/src/phrase_models/AlignmentExtractor.cc and /repo/src/nlp_common/printAligFuncs.cc.
    A stream is the line in the buffer and the lines still to read; a getln at the end of the file leaves the buffer as it is (AwkInputStream.cc:50-67).
    numReps is an exact rational here, a float there. *)
From Coq Require Import Ascii String Arith ZArith NArith QArith List Bool.
From Verif Require Import TextSpec TextModel VocabSpec VocabModel AligSpec AligModel PmModel GfmtModel WgfSpec WgfModel GizaSpec.
Import ListNotations.
Local Open Scope nat_scope.
Record strm := mkstrm { s_buf : str; s_rest : list str }.
Definition getln (s : strm) : bool * strm := match s_rest s with [] => (false, s) | l :: r => (true, mkstrm l r) end.
Definition s_open (file : str) : option strm := match read_lines file with None => None | Some ls => Some (mkstrm [] ls) end.

(** ** printing *)
(** printAlignmentInGIZAFormat printAligFuncs.cc:28-64 (the FILE version :91-126 prints the same); [None]: a cell outside the matrix is read *)
Definition null_links (m : wam) : list nat := map S (filter (fun j => negb (jAligned m j)) (seq 0 (wJ m))).
Definition word_links (m : wam) (i : nat) : list nat := flat_map (fun j => repeat (S j) (N.to_nat (wc m i j))) (seq 0 (wJ m)).
Definition links_text (w : str) (l : list nat) : str := w ++ T " ({ " ++ concat (map (fun j => dec j ++ [SP]) l) ++ T "}) ".
Definition giza_line (ns : list str) (m : wam) : option str :=
  if (length ns <=? S (wI m)) || (wJ m =? 0) then
    Some (match ns with
          | [] => []
          | n :: s => links_text n (null_links m) ++ concat (map (fun p => links_text (snd p) (word_links m (fst p))) (combine (seq 0 (length s)) s))
          end)
  else None.
Definition printGIZA (ns t : list str) (m : wam) (header : str) : option str :=
  match giza_line ns m with None => None | Some l => Some (header ++ NL :: words_text t ++ NL :: l ++ [NL]) end.
(** sprintf(header,"# %g",numReps) AlignmentExtractor.cc:361-363 *)
Definition header_of (reps : Q) : str := T "# " ++ fmt_g reps.
Definition print_entry (e : entry) : option str := printGIZA (e_ns e) (e_t e) (e_al e) (header_of (e_reps e)).

(** printAlignmentInMyFormat printAligFuncs.cc:67-89, operator<< of WordAligMatrix.cc:548-560 *)
Definition row_text (m : wam) (i : nat) : str := concat (map (fun j => dec (N.to_nat (wc m i j)) ++ [SP]) (seq 0 (wJ m))).
Definition matrix_text (m : wam) : str := concat (map (fun i => row_text m i ++ [NL]) (rev (seq 0 (wI m)))).
Definition printMyFormat (ns t : list str) (m : wam) (reps : nat) : str :=
  T "# " ++ dec reps ++ NL :: words_text t ++ NL :: (match ns with [] => [] | _ => words_text ns ++ [NL] end) ++ matrix_text m.

(** ** reading *)
Definition is_tok (f : option str) (w : str) : option bool := match f with None => None | Some f => Some (if str_dec f w then true else false) end.
(** the fields i..NF of the buffer pushed on a vector (:175-178, :257-260, :263-266) *)
Fixpoint fields_from (fuel : nat) (buf : str) (NF i : nat) : option (list str) :=
  match fuel with
  | O => Some []
  | S f => if i <=? NF then match dollar SP buf i, fields_from f buf NF (S i) with Some w, Some r => Some (w :: r) | _, _ => None end else Some []
  end.
(** slen: the number of fields "({" (:181-186) *)
Fixpoint count_open (fuel : nat) (buf : str) (NF i : nat) : option nat :=
  match fuel with
  | O => Some 0
  | S f => if i <=? NF then match is_tok (dollar SP buf i) (T "({"), count_open f buf NF (S i) with Some b, Some n => Some (if b then S n else n) | _, _ => None end else Some 0
  end.
(** while(i<=NF && dollar(i)!="({") ++i (:206-209) *)
Fixpoint skip_to_open (fuel : nat) (buf : str) (NF i : nat) : option nat :=
  match fuel with
  | O => Some i
  | S f => if i <=? NF then match is_tok (dollar SP buf i) (T "({") with None => None | Some true => Some i | Some false => skip_to_open f buf NF (S i) end else Some i
  end.
(** the links of one source word (:211-230): [Stop m] is "return 1", [Go m i] goes on *)
Inductive lnk := Stop (m : wam) | Go (m : wam) (i : nat).
Fixpoint read_links (fuel : nat) (buf : str) (NF i srcPos nt : nat) (m : wam) : option lnk :=
  match fuel with
  | O => Some (Go m i)
  | S f =>
      if i <=? NF then
        match dollar SP buf i with
        | None => None
        | Some w =>
            if str_dec w (T "})") then Some (Go m i)
            else match atoi w with
                 | None => None
                 | Some trgPos =>
                     if (trgPos =? 0) || (nt <? trgPos) then Some (Stop m)                       (* trgPos-1>=t.size(), unsigned *)
                     else read_links f buf NF (S i) srcPos nt
                            (if (0 <? srcPos) && (srcPos - 1 <? wI m) && (trgPos - 1 <? wJ m)
                             then w_setValue m (srcPos - 1) (trgPos - 1) ((wc m (srcPos - 1) (trgPos - 1) + 1) mod 2 ^ 32)%N else m)
                 end
        end
      else Some (Go m i)
  end.
(** the loop over the source words (:197-235) *)
Fixpoint read_words_links (fuel : nat) (buf : str) (NF i srcPos nt : nat) (ns : list str) (m : wam) : option (list str * wam) :=
  match fuel with
  | O => Some (ns, m)
  | S f =>
      if i <=? NF then
        match dollar SP buf i, is_tok (dollar SP buf (S i)) (T "({"), skip_to_open (S NF) buf NF (S i) with
        | Some ew, Some opBraceFound, Some k =>
            match read_links (S NF) buf NF (S k) srcPos nt m with
            | None => None
            | Some (Stop m') => Some (ns, m')
            | Some (Go m' k') => read_words_links f buf NF (S k') (S srcPos) nt (if opBraceFound then ns ++ [ew] else ns) m'
            end
        | _, _, _ => None
        end
      else Some (ns, m)
  end.
(** getNextAlignInGIZAFormat :154-239 *)
Definition giza_header (buf : str) (NF : nat) : option (option Q) :=     (* Some None: not an entry *)
  match dollar SP buf 1, dollar SP buf 2 with
  | Some a, Some b =>
      if (1 <=? NF) && ((if str_dec a (T "#") then true else false) || (if str_dec a (T "<ALMOHADILLA>") then true else false)) then
        if (2 <? NF) || (NF =? 1) then Some (Some 1%Q) else match atofq b with None => None | Some q => Some (Some q) end
      else Some None
  | _, _ => None
  end.
Definition nextGIZA (x : entry) (s : strm) : option (bool * entry * strm) :=
  let (ok, s1) := getln s in
  if negb ok then Some (false, mkent [] [] (e_al x) (e_reps x), s1) else
  match get_NF SP (s_buf s1) with
  | None => None
  | Some NF1 =>
      match giza_header (s_buf s1) NF1 with
      | None => None
      | Some None => Some (false, mkent [] [] (e_al x) (e_reps x), s1)
      | Some (Some reps) =>
          let s2 := snd (getln s1) in
          let s3 := snd (getln s2) in
          match get_NF SP (s_buf s2), get_NF SP (s_buf s3) with
          | Some NF2, Some NF3 =>
              match fields_from (S NF2) (s_buf s2) NF2 1, count_open (S NF3) (s_buf s3) NF3 1 with
              | Some t, Some slen =>
                  if slen =? 0 then Some (false, mkent [] t (e_al x) reps, s3)
                  else match read_words_links (S NF3) (s_buf s3) NF3 1 0 (length t) [] (AligModel.w_init (slen - 1) (length t)) with
                       | None => None
                       | Some (ns, m) => Some (true, mkent ns t m reps, s3)
                       end
              | _, _ => None
              end
          | _, _ => None
          end
      end
  end.
(** the row loop of getNextAlignInAlignOpFormat (:269-282), rows from the last to the first; false: return 0 *)
Fixpoint set_row (buf : str) (row col n : nat) (m : wam) : option wam :=
  match n with
  | O => Some m
  | S n' => match dollar SP buf (S col) with
            | None => None
            | Some w => match atoi w with None => None | Some v => set_row buf row (S col) n' (w_setValue m row col (N.of_nat v)) end
            end
  end.
Fixpoint read_rows (row : nat) (nt : nat) (s : strm) (m : wam) : option (bool * wam * strm) :=
  match row with
  | O => Some (true, m, s)
  | S r =>
      let s1 := snd (getln s) in
      match get_NF SP (s_buf s1) with
      | None => None
      | Some NF => if NF =? nt then match set_row (s_buf s1) r 0 nt m with None => None | Some m' => read_rows r nt s1 m' end else Some (false, m, s1)
      end
  end.
(** getNextAlignInAlignOpFormat :242-289; [None] also when ns is empty: init(ns.size()-1,...) wraps around *)
Definition nextAlignOp (x : entry) (s : strm) : option (bool * entry * strm) :=
  let (ok, s1) := getln s in
  if negb ok then Some (false, mkent [] [] w_empty (e_reps x), s1) else
  match get_NF SP (s_buf s1), dollar SP (s_buf s1) 1, dollar SP (s_buf s1) 2 with
  | Some NF1, Some a, Some b =>
      if (NF1 =? 2) && (if str_dec a (T "#") then true else false) then
        match atofq b with
        | None => None
        | Some reps =>
            let s2 := snd (getln s1) in
            let s3 := snd (getln s2) in
            match get_NF SP (s_buf s2), get_NF SP (s_buf s3) with
            | Some NF2, Some NF3 =>
                match fields_from (S NF2) (s_buf s2) NF2 1, fields_from (S NF3) (s_buf s3) NF3 1 with
                | Some t, Some (n :: ns) =>
                    match read_rows (length ns) (length t) s3 (AligModel.w_init (length ns) (length t)) with
                    | None => None
                    | Some (b, m, s4) => Some (b, mkent (n :: ns) t m reps, s4)
                    end
                | _, _ => None
                end
            | _, _ => None
            end
        end
      else Some (false, mkent [] [] w_empty (e_reps x), s1)
  | _, _, _ => None
  end.

(** ** operations on two files *)
(** transposeAlig :292-312 *)
Definition transposeAlig (e : entry) : entry :=
  mkent ((match e_ns e with [] => [] | n :: _ => n end) :: e_t e) (match e_ns e with [] => [] | _ :: s => s end) (w_transpose (e_al e)) (e_reps e).
Definition apply_op (o : aop) (m w : wam) : option wam :=
  match o with
  | Join => Some (w_or m w) | Intersect => Some (w_and m w) | Sum => Some (w_plus m w)
  | Symmetr1 => symmetr1 m w | Symmetr2 => symmetr2 m w | GrowDiagFinal => growDiagFinal m w
  end.
Definition strs_dec : forall a b : list str, {a = b} + {a <> b} := list_eq_dec str_dec.
(** the body of the loops of join :347-365, intersect :404-423, sum :462-481, symmetr1 :520-539, symmetr2 :579-598, growDiagFinal :638-657 *)
Definition combine1 (o : aop) (tr : bool) (x y : entry) : option entry :=
  let y := if tr then transposeAlig y else y in
  if strs_dec (e_t x) (e_t y) then
    if strs_dec (e_ns x) (e_ns y) then match apply_op o (e_al x) (e_al y) with None => None | Some m => Some (mkent (e_ns x) (e_t x) m (e_reps x)) end
    else Some x
  else Some x.
(** while(alExt.getNextAlignment() && getNextAlignment()); one line is read at least in every round *)
Fixpoint op_loop (fuel : nat) (o : aop) (tr : bool) (x y : entry) (sx sy : strm) : option str :=
  match fuel with
  | O => Some []
  | S f =>
      match nextGIZA y sy with
      | None => None
      | Some (false, _, _) => Some []
      | Some (true, y, sy) =>
          match nextGIZA x sx with
          | None => None
          | Some (false, _, _) => Some []
          | Some (true, x, sx) =>
              match combine1 o tr x y with
              | None => None
              | Some x => match print_entry x, op_loop f o tr x (if tr then transposeAlig y else y) sx sy with Some a, Some r => Some (a ++ r) | _, _ => None end
              end
          end
      end
  end.
Definition no_entry : entry := mkent [] [] w_empty 0.
(** join, intersect, ...(file of *this opened before, GizaAligFileName, outFileName, transpose): the text written *)
Definition align_op (o : aop) (tr : bool) (fx fy : str) : option str :=
  match s_open fx, s_open fy with Some sx, Some sy => op_loop (S (length (s_rest sy))) o tr no_entry no_entry sx sy | _, _ => None end.
(** operator<< of an extractor :671-684: all the entries of the file *)
Fixpoint read_all (fuel : nat) (x : entry) (s : strm) : option (list entry) :=
  match fuel with
  | O => Some []
  | S f => match nextGIZA x s with None => None | Some (false, _, _) => Some [] | Some (true, x, s) => match read_all f x s with None => None | Some r => Some (x :: r) end end
  end.
Definition read_giza (file : str) : option (list entry) := match s_open file with None => None | Some s => read_all (S (length (s_rest s))) no_entry s end.
(** the file holding the entries one after the other *)
Fixpoint giza_file (l : list entry) : option str := match l with [] => Some [] | e :: r => match print_entry e, giza_file r with Some a, Some b => Some (a ++ b) | _, _ => None end end.
Fixpoint read_all_op (fuel : nat) (x : entry) (s : strm) : option (list entry) :=
  match fuel with
  | O => Some []
  | S f => match nextAlignOp x s with None => None | Some (false, _, _) => Some [] | Some (true, x, s) => match read_all_op f x s with None => None | Some r => Some (x :: r) end end
  end.
Definition read_alignop (file : str) : option (list entry) := match s_open file with None => None | Some s => read_all_op (S (length (s_rest s))) no_entry s end.
