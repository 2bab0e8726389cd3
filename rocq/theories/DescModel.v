(** src/nlp_common/ModelDescriptorUtils.cc, src/error_correction/WgHandler.cc, src/phrase_models/SegLenTable.cc.
    A file is its content; [None] for a file that cannot be opened.  awk.NF and awk.dollar are get_NF and dollar of TextModel,
    which never fail (TextProofs.get_NF_words, dollar_words). *)
From Coq Require Import Ascii String Arith NArith ZArith QArith List Bool.
From Verif Require Import TextSpec TextModel VocabSpec VocabModel GfmtModel.
Import ListNotations.
Local Open Scope nat_scope.
Definition SL : ascii := "/"%char.
Definition NFv (l : str) : nat := match get_NF SP l with Some n => n | None => 0 end.
Definition fld (l : str) (i : nat) : str := match dollar SP l i with Some t => t | None => [] end.
Definition isw (a b : str) : bool := if str_dec a b then true else false.
Definition file_lines (f : str) : list str := match read_lines f with Some l => l | None => [] end.

(** ** ModelDescriptorUtils.cc *)
(** extractDirName: ModelDescriptorUtils.cc:69-98; [last] is last_slash_pos, None for -1 *)
Fixpoint last_slash (s : str) (i : nat) (last : option nat) : option nat :=
  match s with [] => last | c :: r => last_slash r (S i) (if Ascii.eqb c SL then Some i else last) end.
Definition extractDirName (p : str) : str := match p with [] => [] | _ => match last_slash p 0 None with None => [] | Some k => firstn (S k) p end end.
(** absolutizeModelFileName: :38-64 *)
Definition absolutize (desc m : str) : str :=
  match m with
  | [] => m
  | c :: _ => if Ascii.eqb c SL then m else match desc with [] => m | _ => extractDirName desc ++ m end
  end.
(** StrProcUtils::expandLibDirIfFound: src/nlp_common/StrProcUtils.cc:216-244; [var] is getLibDirVarNameValue() (:256-262), [dir] is getLibDir() (:247-253) *)
Definition expandLib (var dir so : str) : str :=
  if length so <? length var then so
  else if isw var (firstn (length var) so) then dir ++ skipn (length var) so else so.
(** fileIsDescriptor(fileName): :101-133; the test on the first line *)
Definition desc_head (l : str) : bool :=
  (3 <=? NFv l) && isw (fld l 1) (T "thot") && (isw (fld l 2) (T "tm") || isw (fld l 2) (T "lm") || isw (fld l 2) (T "cf")) && isw (fld l 3) (T "descriptor").
Definition fileIsDescriptor (f : option str) : bool :=
  match f with None => false | Some f => match file_lines f with [] => false | l :: _ => desc_head l end end.
(** fileIsDescriptor(fileName,mainFileName): :135-196; result and mainFileName ([m0]: its value before the call) *)
Fixpoint main_loop (ls : list str) : str :=
  match ls with
  | [] => []
  | l :: r => if (3 <=? NFv l) && isw (fld l 3) (T "main") then fld l 2
              else if (3 <=? NFv l) && isw (fld l 2) (T "main") then fld l 1
              else main_loop r
  end.
Definition fileIsDescriptorMain (f : option str) (m0 : str) : bool * str :=
  match f with
  | None => (false, m0)
  | Some f => match file_lines f with [] => (false, m0) | l :: r => if desc_head l then (true, main_loop r) else (false, m0) end
  end.
Record mentry := mkme { me_init : str; me_file : str; me_status : str; me_abs : str }.
(** entryLen: :224-231, i from 1 *)
Fixpoint entry_len (n i NF : nat) (l : str) : nat :=
  match n with O => NF | S n' => if isw (fld l i) (T "#") then i - 1 else entry_len n' (S i) NF l end.
(** modelInitInfo: :234-240, for(i;i<entryLen-1;++i), [n] iterations left *)
Fixpoint init_loop (var dir : str) (n i el : nat) (l acc : str) : str :=
  match n with
  | O => acc
  | S n' => let acc := acc ++ expandLib var dir (fld l i) in
            init_loop var dir n' (S i) el l (if i =? el - 2 then acc else acc ++ [SP])
  end.
(** the body of the loop: :215-250 *)
Definition read_entry (var dir fileName l : str) : option mentry :=
  if isw (fld l 1) (T "#") then None
  else if 3 <=? NFv l then
    let el := entry_len (NFv l) 1 (NFv l) l in
    Some (mkme (init_loop var dir (el - 2) 1 el l []) (fld l (el - 1)) (fld l el) (absolutize fileName (fld l (el - 1))))
  else None.
Fixpoint read_entries (var dir fileName : str) (ls : list str) (v : list mentry) : list mentry :=
  match ls with
  | [] => v
  | l :: r => read_entries var dir fileName r (match read_entry var dir fileName l with Some e => v ++ [e] | None => v end)
  end.
(** extractModelEntryInfo: :199-256; None for THOT_ERROR *)
Definition extractModelEntryInfo (var dir fileName : str) (f : option str) (v : list mentry) : option (list mentry) :=
  if fileIsDescriptor f then
    match f with None => None | Some f => match file_lines f with [] => Some v | _ :: r => Some (read_entries var dir fileName r v) end end
  else None.
(** printModelDescriptor: :259-281, the text written *)
Definition printModelDescriptor (v : list mentry) : str :=
  T "thot tm descriptor" ++ [NL] ++ concat (map (fun e => me_init e ++ [SP] ++ me_file e ++ [SP] ++ me_status e ++ [NL]) v).

(** ** WgHandler.cc *)
(** std::less on std::string (unsigned characters) and on std::vector<std::string> *)
Fixpoint lexb {A} (lt : A -> A -> bool) (a b : list A) : bool :=
  match a, b with
  | _, [] => false
  | [], _ :: _ => true
  | x :: a', y :: b' => if lt x y then true else if lt y x then false else lexb lt a' b'
  end.
Definition str_lt : str -> str -> bool := lexb (fun a b => nat_of_ascii a <? nat_of_ascii b).
Definition sent_ltb : list str -> list str -> bool := lexb str_lt.
(** std::map<std::vector<std::string>,std::string>: entries in key order; operator[] followed by an assignment *)
Definition wgmap := list (list str * str).
Fixpoint wg_put (k : list str) (v : str) (m : wgmap) : wgmap :=
  match m with
  | [] => [(k, v)]
  | (k', v') :: r => if sent_ltb k k' then (k, v) :: m else if sent_ltb k' k then (k', v') :: wg_put k v r else (k, v) :: r
  end.
(** load: WgHandler.cc:37-68; the body of the loop and the loop *)
Definition wg_line (l : str) (m : wgmap) : wgmap :=
  if 3 <=? NFv l then wg_put (map (fld l) (seq 1 (NFv l - 2))) (fld l (NFv l)) m else m.
Definition wg_load (f : option str) (m : wgmap) : bool * wgmap :=        (* true: THOT_OK *)
  match f with None => (false, m) | Some f => (true, fold_left (fun m l => wg_line l m) (file_lines f) []) end.
(** pathAssociatedToSentence: :71-88; found and the result *)
Fixpoint wg_find (m : wgmap) (k : list str) : option str :=
  match m with [] => None | (k', v) :: r => if list_eq_dec str_dec k k' then Some v else wg_find r k end.
(** size, empty: :91-100 *)
Definition wg_size (m : wgmap) : nat := length m.
Definition wg_empty (m : wgmap) : bool := wg_size m =? 0.
(** print(ostream): :122-132 *)
Definition wg_print (m : wgmap) : str :=
  concat (map (fun p => concat (map (fun w => w ++ [SP]) (fst p)) ++ T "||| " ++ snd p ++ [NL]) m).

(** ** SegLenTable.cc; counts are exact rationals *)
Definition MAXL : nat := 101.                                (* PhraseDefs.h:46 MAX_SENTENCE_LENGTH, the size of the arrays (SegLenTable.h:75-76) *)
Record slt := mkslt { s_cnt : nat -> nat -> Q; s_marg : nat -> Q }.
Definition upd1 (f : nat -> Q) (i : nat) (v : Q) : nat -> Q := fun a => if a =? i then v else f a.
Definition upd2 (f : nat -> nat -> Q) (i j : nat) (v : Q) : nat -> nat -> Q := fun a b => if (a =? i) && (b =? j) then v else f a b.
(** clear: SegLenTable.cc:80-92 *)
Definition sl_clear : slt := mkslt (fun _ _ => 0%Q) (fun _ => 0%Q).
(** constantSegmLengthTable: :57-71 *)
Definition sl_const : slt := mkslt (fun _ _ => 1%Q) (fun _ => (0 + 1)%Q).
(** pk_tlen: :41-54; None: a read outside the arrays *)
Definition pk_tlen (t : slt) (tlen k : nat) : option Q :=
  if (MAXL <? tlen) || (MAXL <? k) then Some 0%Q
  else if MAXL <=? tlen then None
  else if Qeq_bool (s_marg t tlen) 0 then Some 0%Q
  else if MAXL <=? k then None
  else Some (s_cnt t tlen k / s_marg t tlen)%Q.
(** incrCountOf_tlenk, incrCountOf_tlen: :95-104; None: a write outside the arrays *)
Definition incr_tlenk (tlen k : nat) (t : slt) : option slt :=
  if (tlen <? MAXL) && (k <? MAXL) then Some (mkslt (upd2 (s_cnt t) tlen k (s_cnt t tlen k + 1)%Q) (s_marg t)) else None.
Definition incr_tlen (tlen : nat) (t : slt) : option slt :=
  if tlen <? MAXL then Some (mkslt (s_cnt t) (upd1 (s_marg t) tlen (s_marg t tlen + 1)%Q)) else None.
(** a value of atoi as an int: Some None for a negative one *)
Definition s_int (t : str) : option (option nat) :=
  match atoi t with None => None | Some n => Some (if (2147483647 <? N.of_nat n)%N then None else Some n) end.
(** the body of the loop of load_seglentable: :122-138; None: a write outside the arrays or a number outside the model *)
Definition sl_line (l : str) (t : slt) : option slt :=
  if NFv l =? 3 then
    match s_int (fld l 1), s_int (fld l 2) with
    | Some a, Some b =>
        let small x := match x with None => true | Some n => n <? MAXL end in
        if small a && small b then
          match a, b, atofq (fld l 3) with
          | Some i, Some j, Some q => Some (mkslt (upd2 (s_cnt t) i j q) (upd1 (s_marg t) i (s_marg t i + q)%Q))
          | _, _, _ => None
          end
        else Some t
    | _, _ => None
    end
  else Some t.
Fixpoint sl_lines (ls : list str) (t : slt) : option slt :=
  match ls with [] => Some t | l :: r => match sl_line l t with None => None | Some t' => sl_lines r t' end end.
(** load_seglentable: :107-141 *)
Definition sl_load (f : option str) : option slt := match f with None => Some sl_const | Some f => sl_lines (file_lines f) sl_clear end.
(** printSegmLengthTable: :144-157 *)
Definition sl_row (t : slt) (i : nat) : str :=
  concat (map (fun j => if negb (Qle_bool (s_cnt t i j) 0) then dec i ++ [SP] ++ dec j ++ [SP] ++ fmt_g (s_cnt t i j) ++ [NL] else []) (seq 0 MAXL)).
Definition sl_print (t : slt) : str := concat (map (sl_row t) (seq 0 MAXL)).
(** a training run: for every (target length, number of segments) observed, incrCountOf_tlenk and incrCountOf_tlen once *)
Fixpoint sl_train (o : list (nat * nat)) (t : slt) : option slt :=
  match o with
  | [] => Some t
  | (i, j) :: r => match incr_tlenk i j t with None => None | Some t1 => match incr_tlen i t1 with None => None | Some t2 => sl_train r t2 end end
  end.
