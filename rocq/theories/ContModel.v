(** /repo/src/phrase_models/AlignmentContainer.cc and VecUnsignedIntSortCriterion.h.
    The loops while(getNextAlignment()) are folds over the entries the extractor delivers (GizaModel.read_giza): the next entry does not depend on what the body does.
    xVocab and xVocabInv are always extended together and are one list: the index of a word is its position. *)
From Coq Require Import Ascii String Arith ZArith NArith QArith List Bool.
From Verif Require Import TextSpec TextModel VocabSpec VocabModel AligSpec AligModel PmModel GfmtModel WgfSpec WgfModel GizaSpec GizaModel ContSpec.
Import ListNotations.
Local Open Scope nat_scope.
(** AligInfo.h *)
Record info := mkinfo { i_s : list nat; i_al : wam; i_n : nat }.
Record cont := mkcont { c_map : list (list nat * list info); c_tv : list str; c_sv : list str }.
(** VecUnsignedIntSortCriterion.h:35-46 *)
Fixpoint vlt_loop (a b : list nat) : bool :=
  match a, b with x :: a', y :: b' => if y <? x then false else if x <? y then true else vlt_loop a' b' | _, _ => false end.
Definition vlt (a b : list nat) : bool := if length b <? length a then false else if length a <? length b then true else vlt_loop a b.
(** std::map with that criterion: entries in order; find stops at the first equivalent key *)
Fixpoint mget (k : list nat) (m : list (list nat * list info)) : option (list info) :=
  match m with [] => None | (k', v) :: r => if negb (vlt k k') && negb (vlt k' k) then Some v else mget k r end.
Fixpoint mset (k : list nat) (v : list info) (m : list (list nat * list info)) : list (list nat * list info) :=
  match m with [] => [(k, v)] | (k', v') :: r => if vlt k k' then (k, v) :: m else if vlt k' k then (k', v') :: mset k v r else (k, v) :: r end.
(** vecString2VecUnsigInt :312-336 *)
Fixpoint index_of (w : str) (v : list str) : option nat :=
  match v with [] => None | x :: r => if str_dec w x then Some 0 else option_map S (index_of w r) end.
Fixpoint encode (ws : list str) (v : list str) : list nat * list str :=
  match ws with
  | [] => ([], v)
  | w :: r => match index_of w v with
              | Some i => let (is, v') := encode r v in (i :: is, v')
              | None => let (is, v') := encode r (v ++ [w]) in (length v :: is, v')
              end
  end.
(** vecUnsigInt2VecString :339-351 *)
Fixpoint decode (is : list nat) (v : list str) : list str :=
  match is with [] => [] | i :: r => match nth_error v i with Some w => w :: decode r v | None => decode r v end end.
Definition ids_dec : forall a b : list nat, {a = b} + {a <> b} := list_eq_dec Nat.eq_dec.
(** the loop over the vector of one target sentence (:83-91) *)
Fixpoint bump (s : list nat) (al : wam) (v : list info) : list info :=
  match v with [] => [mkinfo s al 1] | i :: r => if ids_dec (i_s i) s then mkinfo (i_s i) (i_al i) (S (i_n i)) :: r else i :: bump s al r end.
(** body of extractAlignmentsFromGIZAFile :66-97 *)
Definition store (c : cont) (e : entry) : cont :=
  let (t_id, tv) := encode (e_t e) (c_tv c) in
  let (s_id, sv) := encode (e_ns e) (c_sv c) in
  match mget t_id (c_map c) with
  | None => mkcont (mset t_id [mkinfo s_id (e_al e) 1] (c_map c)) tv sv
  | Some v => mkcont (mset t_id (bump s_id (e_al e) v) (c_map c)) tv sv
  end.
Definition turn (tr : bool) (e : entry) : entry := if tr then transposeAlig e else e.
Definition extract (tr : bool) (file : str) : option cont :=
  match read_giza file with None => None | Some es => Some (fold_left store (map (turn tr) es) (mkcont [] [] [])) end.
(** join :105-136, intersect :139-171, sum :173-204, symmetr1 :207-239, symmetr2 :242-274, growDiagFinal :277-309: one entry of the other file *)
Fixpoint op_infos (o : aop) (s : list nat) (al : wam) (v : list info) : option (list info) :=
  match v with
  | [] => Some []
  | i :: r => match (if ids_dec s (i_s i) then match apply_op o (i_al i) al with Some m => Some (mkinfo (i_s i) m (i_n i)) | None => None end else Some i), op_infos o s al r with
              | Some i', Some r' => Some (i' :: r')
              | _, _ => None
              end
  end.
Definition op_entry (o : aop) (c : option cont) (e : entry) : option cont :=
  match c with
  | None => None
  | Some c =>
      let (t_id, tv) := encode (e_t e) (c_tv c) in
      match mget t_id (c_map c) with
      | None => Some (mkcont (c_map c) tv (c_sv c))
      | Some [] => Some (mkcont (c_map c) tv (c_sv c))
      | Some v => let (s_id, sv) := encode (e_ns e) (c_sv c) in
                  match op_infos o s_id (e_al e) v with None => None | Some v' => Some (mkcont (mset t_id v' (c_map c)) tv sv) end
      end
  end.
Definition cont_op (c : option cont) (q : ccall) : option cont :=
  let '(o, tr, file) := q in match read_giza file with None => None | Some es => fold_left (op_entry o) (map (turn tr) es) c end.
Definition cont_ops (qs : list ccall) (c : option cont) : option cont := fold_left cont_op qs c.
(** printCompact :468-486, operator<< :447-466 *)
Definition compact_entries (c : cont) : list (str * entry) :=
  flat_map (fun p => map (fun i => (T "# " ++ dec (i_n i), mkent (decode (i_s i) (c_sv c)) (decode (fst p) (c_tv c)) (i_al i) 0)) (snd p)) (c_map c).
Fixpoint print_all (l : list (str * entry)) : option str :=
  match l with [] => Some [] | (h, e) :: r => match printGIZA (e_ns e) (e_t e) (e_al e) h, print_all r with Some a, Some b => Some (a ++ b) | _, _ => None end end.
Definition printCompact (c : cont) : option str := print_all (compact_entries c).
(** printNoCompact :364-404 (:405-445): for each entry of the file the container was filled from, without transposition; numSent counts what is printed *)
Fixpoint nc_infos (n : nat) (e : entry) (sv : list str) (v : list info) : list (str * entry) * nat :=
  match v with
  | [] => ([], n)
  | i :: r => if strs_dec (e_ns e) (decode (i_s i) sv)
              then let (l, n') := nc_infos (S n) e sv r in ((T "# Sentence " ++ dec (S n), mkent (e_ns e) (e_t e) (i_al i) 0) :: l, n')
              else nc_infos n e sv r
  end.
Fixpoint nc_entries (n : nat) (es : list entry) (c : cont) : list (str * entry) :=
  match es with
  | [] => []
  | e :: r => let (t_ui, tv) := encode (e_t e) (c_tv c) in
              let c' := mkcont (c_map c) tv (c_sv c) in
              match mget t_ui (c_map c) with
              | None => nc_entries n r c'
              | Some v => let (l, n') := nc_infos n e (c_sv c) v in l ++ nc_entries n' r c'
              end
  end.
Definition printNoCompact (file : str) (c : cont) : option str := match read_giza file with None => None | Some es => print_all (nc_entries 0 es c) end.
