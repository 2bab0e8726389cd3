(** Trie<KEY,DATA_TYPE> and the word predictor built on it.
    /repo/src/nlp_common/Trie.h, /repo/src/incr_models/WordPredictor.cc *)
From Coq Require Import Ascii String Arith List Bool.
From Verif Require Import TextSpec TrieSpec.
Import ListNotations.

Section TRIE.
Context {K D : Type}.
Variable keq : forall a b : K, {a = b} + {a <> b}.
(** the value of DATA_TYPE() *)
Variable ddef : D.

(** an initialised node with its [children] and [next] pointers: Trie.h:126-130; TNull is NULL *)
Inductive tr := TNull | TNode (key : K) (data : D) (children next : tr).
(** the object itself: uninitialised (children==this; [data] is whatever the member holds) or a node: :142-147 *)
Inductive root := RUninit (data : D) | RNode (t : tr).
Definition new_trie : root := RUninit ddef.

(** nodes created below the current one for the rest of a sequence (insert :224-266, last branch) *)
Fixpoint chain (k : K) (rest : list K) (d : D) : tr :=
  match rest with
  | [] => TNode k d TNull TNull
  | k' :: rest' => TNode k ddef (chain k' rest' d) TNull
  end.
(** insert: :213-269. The while loop walks along [next] up to the key or the last node. *)
Fixpoint ins (t : tr) (k : K) (rest : list K) (d : D) : tr :=
  match t with
  | TNull => chain k rest d
  | TNode k' d' ch nx =>
      if keq k' k then
        match rest with
        | [] => TNode k' d ch nx
        | k2 :: rest' => TNode k' d' (ins ch k2 rest' d) nx
        end
      else TNode k' d' ch (ins nx k rest d)
  end.
Definition insert (r : root) (q : list K) (d : D) : root :=
  match q with
  | [] => r
  | k :: rest =>
      match r with
      | RNode t => RNode (ins t k rest d)
      | RUninit stale =>
          match rest with
          | [] => RNode (TNode k d TNull TNull)
          | k2 :: rest' => RNode (TNode k stale (chain k2 rest' d) TNull)
          end
      end
  end.
(** the node reached by a non-empty sequence: getState :360-393, find :318-358 *)
Fixpoint node_at (t : tr) (k : K) (rest : list K) : tr :=
  match t with
  | TNull => TNull
  | TNode k' d' ch nx =>
      if keq k' k then match rest with [] => t | k2 :: rest' => node_at ch k2 rest' end
      else node_at nx k rest
  end.
(** find: the data, or None for a NULL pointer; an empty sequence gives the data of the object itself *)
Definition find (r : root) (q : list K) : option D :=
  match q with
  | [] => match r with RUninit d => Some d | RNode (TNode _ d _ _) => Some d | RNode TNull => None end
  | k :: rest => match r with RUninit _ => None
                 | RNode t => match node_at t k rest with TNode _ d _ _ => Some d | TNull => None end end
  end.
(** *find(q)=d through the pointer (WordPredictor::addSentenceAux) *)
Fixpoint set_at (t : tr) (k : K) (rest : list K) (d : D) : tr :=
  match t with
  | TNull => TNull
  | TNode k' d' ch nx =>
      if keq k' k then match rest with [] => TNode k' d ch nx | k2 :: rest' => TNode k' d' (set_at ch k2 rest' d) nx end
      else TNode k' d' ch (set_at nx k rest d)
  end.
Definition set_data (r : root) (q : list K) (d : D) : root :=
  match q with
  | [] => match r with RUninit _ => RUninit d | RNode (TNode k _ ch nx) => RNode (TNode k d ch nx) | _ => r end
  | k :: rest => match r with RNode t => RNode (set_at t k rest d) | _ => r end
  end.
(** findV: :395-431 *)
Fixpoint find_v (t : tr) (k : K) (rest : list K) : list D :=
  match t with
  | TNull => []
  | TNode k' d' ch nx =>
      if keq k' k then d' :: match rest with [] => [] | k2 :: rest' => find_v ch k2 rest' end
      else find_v nx k rest
  end.
Definition findV (r : root) (q : list K) : list D :=
  match q, r with k :: rest, RNode t => find_v t k rest | _, _ => [] end.
(** clear: :646-668; the object's own data member is left as it is *)
Definition clear (r : root) : root :=
  match r with RUninit d => RUninit d | RNode (TNode _ d _ _) => RUninit d | RNode TNull => r end.

(** size: :533-553, height: :555-585 (with the reference argument as accumulator) *)
Fixpoint size_t (t : tr) : nat := match t with TNull => 0 | TNode _ _ ch nx => 1 + size_t ch + size_t nx end.
Definition size (r : root) : nat := match r with RUninit _ => 0 | RNode t => size_t t end.
Fixpoint height_t (t : tr) (i r : nat) : nat :=
  match t with
  | TNull => r
  | TNode _ _ ch nx => let r := if r <? i then i else r in height_t nx i (height_t ch (i + 1) r)
  end.
Definition height (r : root) : nat := match r with RUninit _ => 0 | RNode t => height_t t 1 1 end.
(** branchingFactor: :587-616; r[i]+=1 is undefined out of range *)
Fixpoint incr_at (i : nat) (r : list nat) : option (list nat) :=
  match r, i with
  | [], _ => None
  | x :: r', O => Some (S x :: r')
  | x :: r', S i' => match incr_at i' r' with Some r'' => Some (x :: r'') | None => None end
  end.
Fixpoint branching_t (t : tr) (i : nat) (r : list nat) : option (list nat) :=
  match t with
  | TNull => Some r
  | TNode _ _ ch nx =>
      match incr_at i r with
      | None => None
      | Some r => match branching_t ch (i + 1) r with None => None | Some r => branching_t nx i r end
      end
  end.
Definition branchingFactor (r : root) : option (list nat) :=
  let z := repeat 0 (height r) in match r with RUninit _ => Some z | RNode t => branching_t t 0 z end.

(** const_iterator: :77-124, :683-741. The stack vecTriePtr (last element first); vecKeyDataPair.first holds the keys
    along the stack and .second the data of the last node. *)
Fixpoint descend (t : tr) (st : list tr) : list tr :=
  match t with
  | TNull => st
  | TNode _ _ ch _ => match ch with TNull => t :: st | _ => descend ch (t :: st) end
  end.
Definition begin_at (t : tr) : list tr := descend t [].
Definition begin_root (r : root) : list tr := match r with RUninit _ => [] | RNode t => begin_at t end.
Definition incr_iter (st : list tr) : list tr :=
  match st with
  | TNode _ _ _ nx :: st' => match nx with TNull => st' | _ => descend nx st' end
  | _ => []
  end.
Fixpoint keys_of (st : list tr) : list K :=
  match st with TNode k _ _ _ :: st' => k :: keys_of st' | _ => [] end.
Definition deref (st : list tr) : option (list K * D) :=
  match st with TNode _ d _ _ :: _ => Some (rev (keys_of st), d) | _ => None end.
(** for(it=begin();it!=end();++it) *)
Fixpoint iterate (fuel : nat) (st : list tr) : option (list (list K * D)) :=
  match deref st with
  | None => Some []
  | Some kd => match fuel with
               | O => None
               | S f => match iterate f (incr_iter st) with Some l => Some (kd :: l) | None => None end
               end
  end.
(** getState with its three outcomes folded into one root: an empty sequence gives the object itself *)
Definition getState (r : root) (q : list K) : option root :=
  match q with
  | [] => Some r
  | k :: rest => match r with RUninit _ => None
                 | RNode t => match node_at t k rest with TNull => None | t' => Some (RNode t') end end
  end.
End TRIE.

(** ** WordPredictor; Count is a float holding a non-negative whole number, modelled as a natural number (no rounding) *)
Definition ctrie := @root ascii nat.
Record predictor := { p_trie : ctrie; p_retain : nat; p_buf : list (list str) }.
(** constructor :33-36 *)
Definition new_predictor : predictor := {| p_trie := new_trie 0; p_retain := 1; p_buf := [] |}.
(** addSentenceAux: :145-170 *)
Definition addWord (t : ctrie) (w : str) : ctrie :=
  match find ascii_dec t w with
  | None => insert ascii_dec 0 t w 1
  | Some c => set_data ascii_dec t w (c + 1)
  end.
Definition addSentenceAux (t : ctrie) (ws : list str) : ctrie := fold_left addWord ws t.
(** addSentence: :129-143 *)
Definition addSentence (p : predictor) (ws : list str) : predictor :=
  if 0 <? p_retain p then
    let buf := p_buf p ++ [ws] in
    if length buf =? p_retain p then {| p_trie := fold_left addSentenceAux buf (p_trie p); p_retain := p_retain p; p_buf := [] |}
    else {| p_trie := p_trie p; p_retain := p_retain p; p_buf := buf |}
  else p.
(** clear: :221-226 *)
Definition p_clear (p : predictor) : predictor := {| p_trie := clear (p_trie p); p_retain := 1; p_buf := [] |}.
(** load: :39-127 on files already split into words, .addinfo holding one number (or absent) *)
Definition p_load (p : predictor) (sents : list (list str)) (addinfo : option nat) : predictor :=
  let p := fold_left addSentence sents p in
  match addinfo with None => p | Some n => {| p_trie := p_trie p; p_retain := n; p_buf := p_buf p |} end.

(** SuffixList = std::map<Count,std::string,std::greater<Count> >: out[c]=s *)
Fixpoint sl_set (c : nat) (s : str) (l : list (nat * str)) : list (nat * str) :=
  match l with
  | [] => [(c, s)]
  | (c', s') :: l' => if c' <? c then (c, s) :: l else if c' =? c then (c, s) :: l' else (c', s') :: sl_set c s l'
  end.
(** the loop of getSuffixList: :186-209 *)
Fixpoint sl_loop (input : str) (its : list (str * nat)) (out : list (nat * str)) : list (nat * str) :=
  match its with
  | [] => out
  | (first, second) :: its' =>
      if 0 <? second then
        if (0 <? length input) && negb (Ascii.eqb (nth 0 first "000"%char) (nth (length input - 1) input "000"%char)) then out
        else sl_loop input its' (sl_set second (tl first) out)
      else sl_loop input its' out
  end.
(** getSuffixList: :172-211 *)
Definition getSuffixList (p : predictor) (input : str) : option (list (nat * str)) :=
  match getState ascii_dec (p_trie p) input with
  | None => Some []
  | Some r => match iterate (size r) (begin_root r) with
              | None => None
              | Some its => Some (sl_loop input its [])
              end
  end.
(** getBestSuffix: :213-219 *)
Definition getBestSuffix (p : predictor) (input : str) : option (nat * str) :=
  match getSuffixList p input with
  | None => None
  | Some [] => Some (0, [])
  | Some (x :: _) => Some x
  end.
