(** The tools that work on binary files of counts when a model is trained chunk by chunk (utils/sw_models/thot_gen_batch_sw_model_mr.sh):
    /repo/src/sw_models/thot_sort_bin_*.cc, thot_merge_bin_*.cc, thot_filter_bin_ilextable.cc, thot_gen_bin_lex_filter_info.cc,
    thot_prune_bin_ilextable.cc, and IncrLexTable.cc load/print.  The lexical, IBM model 2 and HMM versions of sort and merge have the same code
    for different keys: it is written once for two key types with their comparisons.  A file is the list of its records; floats are real numbers
    (LogNum.lg in the log domain).  Command line handling and files that do not exist or are cut in the middle of a record are left out. *)
From Coq Require Import Reals NArith Arith List Bool Sorted Permutation.
From Verif Require Import AMap LogNum Ibm2Model.
Import ListNotations.
Open Scope R_scope.
Record rec {K1 K2 : Type} := { rs : K1; rt : K2; rn : lg; rd : lg }.
Arguments rec : clear implicits.
Section TOOLS.
Context {K1 K2 : Type}.
Variable lt1 : K1 -> K1 -> bool.
Variable lt2 : K2 -> K2 -> bool.
Variable d1 : forall a b : K1, {a = b} + {a <> b}.
Variable d2 : forall a b : K2, {a = b} + {a <> b}.
Notation record := (rec K1 K2).
(** thot_merge_bin_ilextable.cc:54-69 operator()(a,b) of the queue; thot_sort_bin_ilextable.cc has the same with a and b exchanged *)
Definition after (a b : record) : bool :=
  if lt1 (rs b) (rs a) then true else if lt1 (rs a) (rs b) then false else
  if lt2 (rt b) (rt a) then true else if lt2 (rt a) (rt b) then false else false.
(** thot_sort_bin_ilextable.cc main: all records are read into a vector, sorted with std::sort (any order of the records in which none is after a
    later one) and written *)
Definition sort_tool (f g : list record) : Prop := Permutation f g /\ StronglySorted (fun a b => after a b = false) g.
(** ---- merge.  :45-52 Entry: a record with the number of the file it comes from *)
Record entry := { er : record; eid : nat }.
(** :303-317 readTableRecord on file i; fs: what is left of each file *)
Definition upd_file (i : nat) (f : list record) (fs : list (list record)) : list (list record) := firstn i fs ++ f :: skipn (S i) fs.
Definition read_rec (fs : list (list record)) (i : nat) : option record * list (list record) :=
  match nth i fs [] with [] => (None, fs) | r :: f => (Some r, upd_file i f fs) end.
(** :208-224 initPrQueue; the queue is the collection of its elements *)
Definition init_step (st : list entry * list (list record)) (i : nat) : list entry * list (list record) :=
  match read_rec (snd st) i with
  | (Some r, fs') => ({| er := r; eid := i |} :: fst st, fs')
  | (None, fs') => (fst st, fs')
  end.
Definition initPrQueue (fs : list (list record)) : list entry * list (list record) := fold_left init_step (seq 0 (length fs)) ([], fs).
(** top() of a std::priority_queue: an element such that the comparison puts it after no other; which of several is not specified *)
Definition is_top (e : entry) (q : list entry) : Prop := In e q /\ forall x, In x q -> after (er e) (er x) = false.
(** :227-253 getNextEntry, called until it finds the queue empty: the sequence of entries obtained *)
Definition push_next (i : nat) (q : list entry) (fs : list (list record)) : list entry * list (list record) :=
  match read_rec fs i with
  | (Some r, fs') => ({| er := r; eid := i |} :: q, fs')
  | (None, fs') => (q, fs')
  end.
Inductive drain : list entry -> list (list record) -> list entry -> Prop :=
| dr_end : forall fs, drain [] fs []
| dr_next : forall q1 e q2 fs L, is_top e (q1 ++ e :: q2) ->
    drain (fst (push_next (eid e) (q1 ++ q2) fs)) (snd (push_next (eid e) (q1 ++ q2) fs)) L -> drain (q1 ++ e :: q2) fs (e :: L).
(** :256-289 printCounts; trgWordVec and lcSrcTrgVec, filled together, are one vector of pairs.  None: trgWordVec[0] of an empty vector *)
Fixpoint print_counts (s : K1) (lcSrc : lg) (t : K2) (n : lg) (v : list (K2 * lg)) : list record :=
  match v with
  | [] => [{| rs := s; rt := t; rn := n; rd := lcSrc |}]
  | (t', n') :: v' => if d2 t t' then print_counts s lcSrc t (lgsumlog n n') v'
                      else {| rs := s; rt := t; rn := n; rd := lcSrc |} :: print_counts s lcSrc t' n' v'
  end.
Definition printCounts (s : K1) (v : list (K2 * lg)) (lcSrc : lg) : option (list record) :=
  match v with [] => None | (t, n) :: v' => Some (print_counts s lcSrc t n v') end.
(** :102-176 main.  m_src: None while first_entry is true *)
Record mst := { m_src : option K1; m_lc : lg; m_vec : list (K2 * lg); m_chunks : list nat; m_out : list record }.
Definition mst0 : mst := {| m_src := None; m_lc := LZ; m_vec := []; m_chunks := []; m_out := [] |}.
Definition count_chunk (e : entry) (st : mst) : mst :=
  if in_dec Nat.eq_dec (eid e) (m_chunks st) then st
  else {| m_src := m_src st; m_lc := lgsumlog (m_lc st) (rd (er e)); m_vec := m_vec st; m_chunks := eid e :: m_chunks st; m_out := m_out st |}.
Definition merge_step (st : mst) (e : entry) : option mst :=
  let x := (rt (er e), rn (er e)) in
  match m_src st with
  | None => Some (count_chunk e {| m_src := Some (rs (er e)); m_lc := m_lc st; m_vec := m_vec st ++ [x]; m_chunks := m_chunks st; m_out := m_out st |})
  | Some s =>
    if d1 s (rs (er e))
    then Some (count_chunk e {| m_src := Some s; m_lc := m_lc st; m_vec := m_vec st ++ [x]; m_chunks := m_chunks st; m_out := m_out st |})
    else match printCounts s (m_vec st) (m_lc st) with
         | Some o => Some (count_chunk e {| m_src := Some (rs (er e)); m_lc := LZ; m_vec := [x]; m_chunks := []; m_out := m_out st ++ o |})
         | None => None
         end
  end.
Fixpoint merge_loop (st : mst) (L : list entry) : option mst :=
  match L with [] => Some st | e :: L' => match merge_step st e with Some st' => merge_loop st' L' | None => None end end.
Definition merge_main (L : list entry) : option (list record) :=
  match merge_loop mst0 L with
  | Some st => match m_src st with
               | Some s => match printCounts s (m_vec st) (m_lc st) with Some o => Some (m_out st ++ o) | None => None end
               | None => None
               end
  | None => None
  end.
(** the tool applied to files fs writes out; None: undefined behaviour *)
Definition merge_tool (fs : list (list record)) (out : option (list record)) : Prop :=
  exists L, drain (fst (initPrQueue fs)) (snd (initPrQueue fs)) L /\ out = merge_main L.
(** ---- IncrLexTable.cc:229-256 printBin (the order of the records is that of the hash maps), :149-184 loadBin; same for the alignment table *)
Definition denom_or_zero (T : ndtab K1 K2) (s : K1) : lg := match getDenom d1 T s with Some d => d | None => LZ end.
Definition print_table (T : ndtab K1 K2) (f : list record) : Prop :=
  Permutation f (map (fun e => {| rs := fst (fst e); rt := snd (fst e); rn := snd e; rd := denom_or_zero T (fst (fst e)) |}) (ndn T)).
Definition load_table (f : list record) : ndtab K1 K2 := fold_left (fun T r => setNumDen d1 d2 T (rs r) (rt r) (rn r) (rd r)) f nd_empty.
(** ---- thot_gen_bin_lex_filter_info.cc: the keys of the records *)
Definition gen_filter_info (f : list record) : list (K1 * K2) := map (fun r => (rs r, rt r)) f.
(** ---- thot_filter_bin_ilextable.cc:79-116 *)
Fixpoint filter_tool (tab : list record) (filt : list (K1 * K2)) : list record :=
  match filt with
  | [] => []
  | (sF, tF) :: filt' =>
    match tab with
    | [] => []
    | r :: tab' => if d1 (rs r) sF then if d2 (rt r) tF then r :: filter_tool tab' filt' else filter_tool tab' filt else filter_tool tab' filt
    end
  end.
(** ---- thot_prune_bin_ilextable.cc:75-152 main; the arguments of the successive calls of printCounts *)
Record pst := { p_src : option K1; p_lc : lg; p_vec : list (K2 * lg); p_calls : list (list (K2 * lg) * lg * option K1) }.
Definition prune_step (st : pst) (r : record) : pst :=
  match p_src st with
  | None => {| p_src := Some (rs r); p_lc := rn r; p_vec := p_vec st ++ [(rt r, rn r)]; p_calls := p_calls st |}
  | Some s =>
    if d1 s (rs r)
    then {| p_src := Some s; p_lc := lgsumlog (p_lc st) (rn r); p_vec := p_vec st ++ [(rt r, rn r)]; p_calls := p_calls st |}
    else {| p_src := Some (rs r); p_lc := rn r; p_vec := [(rt r, rn r)]; p_calls := p_calls st ++ [(p_vec st, p_lc st, Some s)] |}
  end.
Definition prune_calls (f : list record) : list (list (K2 * lg) * lg * option K1) :=
  let st := fold_left prune_step f {| p_src := None; p_lc := LZ; p_vec := []; p_calls := [] |} in p_calls st ++ [(p_vec st, p_lc st, p_src st)].
(** :155-200 printCounts: how many of the sorted targets are kept and their accumulated count *)
Fixpoint prune_keep (n_val : nat) (c_val : R) (lcSrc newLc : lg) (num : nat) (v : list (K2 * lg)) : nat * lg :=
  match v with
  | [] => (num, newLc)
  | (t, n) :: v' =>
    if ((Nat.ltb num n_val || Nat.leb n_val 0) && (if Rle_dec c_val (lgexp (lgsub n lcSrc)) then true else false))%bool
    then prune_keep n_val c_val lcSrc (lgsumlog newLc n) (S num) v' else (num, newLc)
  end.
Definition prune_print (n_val : nat) (c_val : R) (call : list (K2 * lg) * lg * option K1) (out : list record) : Prop :=
  let '(v, lcSrc, src) := call in
  exists v', Permutation v v' /\ StronglySorted (fun a b => lgltb (snd a) (snd b) = false) v' /\
    let k := prune_keep n_val c_val lcSrc LZ 0 v' in
    match src with
    | Some s => out = map (fun x => {| rs := s; rt := fst x; rn := snd x; rd := snd k |}) (firstn (fst k) v')
    | None => out = []
    end.
Definition prune_tool (n_val : nat) (c_val : R) (f out : list record) : Prop :=
  exists outs, Forall2 (prune_print n_val c_val) (prune_calls f) outs /\ out = concat outs.
End TOOLS.
Arguments entry : clear implicits.
(** the comparisons of the three versions: lexical tables (:54-69), thot_merge_bin_iibm2atable.cc:55-76, thot_merge_bin_ihmmatable.cc:55-73 *)
Definition lt_word (a b : N) : bool := N.ltb a b.
Definition lt_pos (a b : nat) : bool := Nat.ltb a b.
Definition lt_asource (a b : nat * nat * nat) : bool :=
  let '(j, l, m) := a in let '(j', l', m') := b in
  if Nat.ltb j j' then true else if Nat.ltb j' j then false else
  if Nat.ltb l l' then true else if Nat.ltb l' l then false else Nat.ltb m m'.
Definition lt_asourcehmm (a b : nat * nat) : bool :=
  let '(i, l) := a in let '(i', l') := b in
  if Nat.ltb i i' then true else if Nat.ltb i' i then false else Nat.ltb l l'.
