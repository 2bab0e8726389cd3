(** LevelDB as used by thot: an ordered byte-string map.  A database is the list of its entries in key order
    (leveldb's default BytewiseComparator).  Only Put/Get/Delete/iteration with Seek are modelled; I/O failures are not
    (every Status is ok). *)
From Coq Require Import NArith List Bool.
From Verif Require Import CodecModel LexSpec.
Import ListNotations.
Open Scope N_scope.

(** bytewise comparison (leveldb BytewiseComparator and std::string operator<, e.g. IncrLexLevelDbTable.cc:282) *)
Fixpoint bytes_ltb (a b : list N) : bool :=
  match a, b with
  | _, [] => false
  | [], _ :: _ => true
  | x :: a', y :: b' => if x <? y then true else if x =? y then bytes_ltb a' b' else false
  end.

Section DB.
Context {V : Type}.
Definition db := list (list N * V).

(** WriteBatch::Put + DB::Write, e.g. IncrLexLevelDbTable.cc:194-207 *)
Fixpoint db_put (k : list N) (v : V) (d : db) : db :=
  match d with
  | [] => [(k, v)]
  | (k', v') :: d' =>
      if bytes_ltb k k' then (k, v) :: d
      else if bytes_ltb k' k then (k', v') :: db_put k v d'
      else (k, v) :: d'
  end.

(** DB::Get, e.g. IncrLexLevelDbTable.cc:178-191 *)
Fixpoint db_get (k : list N) (d : db) : option V :=
  match d with
  | [] => None
  | (k', v') :: d' =>
      if bytes_ltb k k' then None
      else if bytes_ltb k' k then db_get k d'
      else Some v'
  end.

(** Iterator::Seek(start): first entry not below [start] *)
Fixpoint db_seek (start : list N) (d : db) : db :=
  match d with
  | [] => []
  | (k, v) :: d' => if bytes_ltb k start then db_seek start d' else d
  end.

(** loop [it->Valid() && it->key() < end; it->Next()] *)
Fixpoint db_until (stop : list N) (d : db) : db :=
  match d with
  | [] => []
  | (k, v) :: d' => if bytes_ltb k stop then (k, v) :: db_until stop d' else []
  end.

(** entries visited by [for(it->Seek(start); it->Valid() && key<end; it->Next())], IncrLexLevelDbTable.cc:282 *)
Definition db_range (start stop : list N) (d : db) : db := db_until stop (db_seek start d).
End DB.
Arguments db : clear implicits.

(** ** IncrLexLevelDbTable (src/sw_models/IncrLexLevelDbTable.cc): values are the encoded float bit patterns *)
Definition lexdb := db (list N).

(** storeData: :194-207 *)
Definition lexdb_storeData (phrase : list N) (value : N) (d : lexdb) : lexdb :=
  db_put (lex_vectorToKey phrase) (floatToString value) d.
(** retrieveData: :178-191 ([None] = not found) *)
Definition lexdb_retrieveData (phrase : list N) (d : lexdb) : option N :=
  match db_get (lex_vectorToKey phrase) d with
  | None => None
  | Some s => stringToFloat s
  end.
(** setLexNumer: :210-222 *)
Definition lexdb_setLexNumer (s t : N) (f : N) (d : lexdb) : lexdb := lexdb_storeData [t; s] f d.
(** getLexNumer: :225-237 *)
Definition lexdb_getLexNumer (s t : N) (d : lexdb) : option N := lexdb_retrieveData [t; s] d.
(** setLexDenom: :240-247 *)
Definition lexdb_setLexDenom (s : N) (x : N) (d : lexdb) : lexdb := lexdb_storeData [s] x d.
(** getLexDenom: :250-260 *)
Definition lexdb_getLexDenom (s : N) (d : lexdb) : option N := lexdb_retrieveData [s] d.
(** setLexNumDen: :302-309 *)
Definition lexdb_setLexNumDen (s t num den : N) (d : lexdb) : lexdb := lexdb_setLexNumer s t num (lexdb_setLexDenom s den d).

(** getTransForTarget: :263-299; [t+1] is computed in unsigned int.  Returns the inserted source words in scan order
    (the C++ std::set forgets the order); a key that does not decode is skipped. *)
Definition lexdb_scan (t : N) (d : lexdb) : list N :=
  flat_map (fun e => match lex_keyToVector (fst e) with
                     | Some vec => if (1 <? N.of_nat (length vec)) then [last vec 0] else []
                     | None => []
                     end)
           (db_range (lex_vectorToKey [t]) (lex_vectorToKey [(t + 1) mod two32]) d).
Definition lexdb_getTransForTarget (t : N) (d : lexdb) : bool * list N :=
  let r := lexdb_scan t d in (negb (match r with [] => true | _ => false end), r).

(** a history of setter calls on a freshly cleared table *)
Definition lexdb_apply (d : lexdb) (o : lex_op) : lexdb :=
  match o with OpNum s t f => lexdb_setLexNumer s t f d | OpDen s f => lexdb_setLexDenom s f d end.
Definition lexdb_run (ops : list lex_op) : lexdb := fold_left lexdb_apply ops [].

