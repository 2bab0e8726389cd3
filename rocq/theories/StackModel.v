(** Search stacks of the decoder: /repo/src/stack_dec/{SmtStack.h,_smtStack.h,SmtMultiStackRec.h,_smtMultiStack.h,
    HypSortCriterion.h,HypStateDict.h,PhrHypNumcovJumps*EqClassF.cc}.
    Scores are Z (only compared).  Every stored hypothesis is a multiset node with an identity (allocation number), so that
    iterators kept in recInfoMap can dangle: using one that designates no stored node is undefined behaviour, None.  States are numbers (only
    compared).  Not modelled: THOT_STATS counters; the harmless decrement of begin() in erase(pos--) (SmtStack.h:199); remove(iterator)
    of the multi-stack, whose template body would not compile if instantiated. *)
From Coq Require Import ZArith Arith List Bool.
From Verif Require Import AMap StackSpec.
Import ListNotations.
Open Scope nat_scope.

Definition node := (nat * hyp)%type.
Definition nscore (n : node) : Z := hscore (snd n).

(** multiset::insert under HypSortCriterion (score descending, HypSortCriterion.h:36-44): after the elements that are not worse *)
Fixpoint ms_insert (n : node) (l : list node) : list node :=
  match l with
  | [] => [n]
  | m :: r => if (nscore n <=? nscore m)%Z then m :: ms_insert n r else n :: l
  end.
(** SmtStack.h:190-202 *)
Definition st_removeLast (l : list node) : list node := removelast l.
(** while(size>max) removeLast()  (SmtStack.h:109) *)
Definition st_trim (max : nat) (l : list node) : list node := Nat.iter (length l - max) st_removeLast l.
(** SmtStack.h:101-153; result: inserted (iterator != end()) and the new container *)
Definition st_pushIter (max : nat) (n : node) (l : list node) : bool * list node :=
  if max =? 0 then (false, l) else
  let l := st_trim max l in
  match l with
  | [] => let l' := ms_insert n l in (true, if max <? length l' then st_removeLast l' else l')
  | x :: _ =>
    let lst := last l x in
    if (length l =? max) && (nscore n <=? nscore lst)%Z then (false, l)
    else let l' := ms_insert n l in (true, if max <? length l' then st_removeLast l' else l')
  end.
(** SmtStack.h:167-177 pop, _smtStack.h:122-137 top/last; None on an empty container *)
Definition st_pop (l : list node) : option (node * list node) := match l with [] => None | n :: r => Some (n, r) end.
Definition st_top (l : list node) : option node := match l with [] => None | n :: _ => Some n end.
Definition st_last (l : list node) : option node := match l with [] => None | n :: _ => Some (last l n) end.
(** SmtStack.h:179-187 remove: erasing through an iterator; None if the iterator designates no element *)
Fixpoint st_erase (id : nat) (l : list node) : option (list node) :=
  match l with
  | [] => None
  | n :: r => if fst n =? id then Some r else option_map (cons n) (st_erase id r)
  end.

(** a whole session on one stack (used for C33): pushes from empty, numbering the pushed hypotheses *)
Fixpoint st_run (max id : nat) (hs : list hyp) (l : list node) : list bool * list node :=
  match hs with
  | [] => ([], l)
  | h :: r => let (b, l1) := st_pushIter max (id, h) l in
              let (bs, l2) := st_run max (S id) r l1 in (b :: bs, l2)
  end.

(** any history of push, pop and removeLast on one stack, numbering the pushed hypotheses *)
Fixpoint st_hist (max id : nat) (ops : list st_op) (l : list node) : list node :=
  match ops with
  | [] => l
  | SPush h :: r => st_hist max (S id) r (snd (st_pushIter max (id, h) l))
  | SPop :: r => st_hist max id r (match st_pop l with Some (_, l') => l' | None => l end)
  | SRemoveLast :: r => st_hist max id r (st_removeLast l)
  end.

(** HypStateDict.h: map from state to (index, score) *)
Definition dict := list (nat * (nat * Z)).
(** HypStateDict.h:108-136 createDictEntry; the entry returned is (index, score) *)
Definition createDictEntry (st : nat) (sc : Z) (d : dict) : dict :=
  match aget Nat.eq_dec st d with
  | None => aset Nat.eq_dec st (length d, sc) d
  | Some (i, _) => aset Nat.eq_dec st (i, sc) d
  end.
Fixpoint dict_run (hs : list hyp) (d : dict) : dict :=
  match hs with [] => d | h :: r => dict_run r (createDictEntry (hstate h) (hscore h) d) end.

(** ** multi-stack *)
Definition cls := (nat * nat)%type.
Definition cls_dec : forall a b : cls, {a = b} + {a <> b}.
Proof. decide equality; apply Nat.eq_dec. Defined.
Definition cls_ltb (a b : cls) : bool := (fst a <? fst b) || ((fst a =? fst b) && (snd a <? snd b)).
(** std::map::insert of a key (no effect if present), keys ascending *)
Fixpoint kinsert (k : cls) (l : list cls) : list cls :=
  match l with
  | [] => [k]
  | x :: r => if cls_ltb k x then k :: l else if cls_ltb x k then x :: kinsert k r else l
  end.
(** std::map::erase(key) *)
Definition kerase (k : cls) (l : list cls) : list cls := filter (fun x => if cls_dec x k then false else true) l.

(** _smtMultiStack.h:76-81, SmtMultiStackRec.h:107-108.  [conts] multiContainer, [sorted] keys of sortedStacksMap, [recinfo] recInfoMap:
    state index -> (sub-stack, node); [sdict] the shared HypStateDict; [next] allocation counter of nodes. *)
Record mstack := { mmax : nat; conts : list (cls * list node); sorted : list cls; recinfo : list (nat * (cls * nat));
                   sdict : dict; bfirst : bool; next : nat }.
Definition ms_empty (max : nat) : mstack :=
  {| mmax := max; conts := []; sorted := []; recinfo := []; sdict := []; bfirst := false; next := 0 |}.
(** the sub-stack of a class; a class not in the container has no stack (None) *)
Definition substack (M : mstack) (k : cls) : option (list node) := aget cls_dec k (conts M).
Definition stk (M : mstack) (k : cls) : list node := match substack M k with Some l => l | None => [] end.
Definition set_conts M c := {| mmax := mmax M; conts := c; sorted := sorted M; recinfo := recinfo M; sdict := sdict M; bfirst := bfirst M; next := next M |}.
Definition set_sorted M s := {| mmax := mmax M; conts := conts M; sorted := s; recinfo := recinfo M; sdict := sdict M; bfirst := bfirst M; next := next M |}.
Definition set_rec M r := {| mmax := mmax M; conts := conts M; sorted := sorted M; recinfo := r; sdict := sdict M; bfirst := bfirst M; next := next M |}.
Definition set_dict M d := {| mmax := mmax M; conts := conts M; sorted := sorted M; recinfo := recinfo M; sdict := d; bfirst := bfirst M; next := next M |}.
Definition set_next M n := {| mmax := mmax M; conts := conts M; sorted := sorted M; recinfo := recinfo M; sdict := sdict M; bfirst := bfirst M; next := n |}.
Definition set_bf (b : bool) M := {| mmax := mmax M; conts := conts M; sorted := sorted M; recinfo := recinfo M; sdict := sdict M; bfirst := b; next := next M |}.
(** _smtMultiStack.h:117-130 *)
Definition setMaxStackSize (n : nat) M := {| mmax := n; conts := conts M; sorted := sorted M; recinfo := recinfo M; sdict := sdict M; bfirst := bfirst M; next := next M |}.
(** write the stack of class k *)
Definition put_stk M k l := set_conts M (aset cls_dec k l (conts M)).

(** SmtMultiStackRec.h:391-397; None: the state is not in the dictionary (dereferencing end()) *)
Definition eraseRecInfo (st : nat) (M : mstack) : option mstack :=
  match aget Nat.eq_dec st (sdict M) with
  | None => None
  | Some (idx, _) => Some (set_rec M (adel Nat.eq_dec idx (recinfo M)))
  end.

(** SmtMultiStackRec.h:339-388 *)
Definition pushOnSmtStackIdx (k : cls) (h : hyp) (idx : nat) (M : mstack) : option (bool * mstack) :=
  (* 347-355: remove the old hypothesis, if the iterator belongs to this sub-stack *)
  let removed := match aget Nat.eq_dec idx (recinfo M) with
                 | Some (k', id') => if cls_dec k' k then option_map (put_stk M k) (st_erase id' (stk M k)) else Some M
                 | None => Some M
                 end in
  match removed with
  | None => None
  | Some M =>
    let lastHyp := st_last (stk M k) in
    let prev := length (stk M k) in
    let n := (next M, h) in
    let (ok, l') := st_pushIter (mmax M) n (stk M k) in
    let M := set_next (put_stk M k l') (S (next M)) in
    if ok then
      let M := set_rec M (aset Nat.eq_dec idx (k, fst n) (recinfo M)) in
      if prev =? length l' then
        match lastHyp with
        | None => None (* state of a default hypothesis looked up in the dictionary *)
        | Some lh => match eraseRecInfo (hstate (snd lh)) M with None => None | Some M => Some (true, M) end
        end
      else Some (true, M)
    else Some (false, M)
  end.
(** SmtMultiStackRec.h:295-337 *)
Definition pushOnSmtStack (k : cls) (h : hyp) (M : mstack) : option (bool * mstack) :=
  match aget Nat.eq_dec (hstate h) (sdict M) with
  | Some (idx, sc) =>
    if (hscore h <? sc)%Z then Some (false, M)
    else pushOnSmtStackIdx k h idx (set_dict M (aset Nat.eq_dec (hstate h) (idx, hscore h) (sdict M)))
  | None =>
    let d := createDictEntry (hstate h) (hscore h) (sdict M) in
    match aget Nat.eq_dec (hstate h) d with
    | None => None
    | Some (idx, _) => pushOnSmtStackIdx k h idx (set_dict M d)
    end
  end.
(** SmtMultiStackRec.h:121-158 *)
Definition ms_push (h : hyp) (M : mstack) : option (bool * mstack) :=
  let k := hclass h in
  let M := match substack M k with
           | Some _ => M
           | None => set_sorted (put_stk M k []) (kinsert k (sorted M))
           end in
  let prev := length (stk M k) in
  match pushOnSmtStack k h M with
  | None => None
  | Some (true, M) => Some (true, if prev =? 0 then set_sorted M (kinsert k (sorted M)) else M)
  | Some (false, M) => Some (false, if length (stk M k) =? 0 then set_sorted M (kerase k (sorted M)) else M)
  end.

(** the scan of SmtMultiStackRec.h:186-199: best so far (class, node) *)
Fixpoint scan_best (M : mstack) (ks : list cls) (best : cls * node) : option (cls * node) :=
  match ks with
  | [] => Some best
  | k :: r => match st_top (stk M k) with
              | None => None
              | Some n => scan_best M r (if (nscore (snd best) <? nscore n)%Z then (k, n) else best)
              end
  end.
(** SmtMultiStackRec.h:171-211; None: empty multi-stack or dereference of an empty sub-stack *)
Definition ms_pop (M : mstack) : option (hyp * mstack) :=
  match sorted M with
  | [] => None
  | k0 :: _ =>
    match st_top (stk M k0) with
    | None => None
    | Some n0 =>
      match (if bfirst M then Some (k0, n0) else scan_best M (sorted M) (k0, n0)) with
      | None => None
      | Some (k, n) =>
        match st_top (stk M k) with
        | None => None
        | Some t =>
          match eraseRecInfo (hstate (snd t)) M with
          | None => None
          | Some M =>
            match st_pop (stk M k) with
            | None => None
            | Some (_, l') =>
              let M := put_stk M k l' in
              Some (snd n, if length l' =? 0 then set_sorted M (kerase k (sorted M)) else M)
            end
          end
        end
      end
    end
  end.
(** SmtMultiStackRec.h:228-278.  In best-first mode the loop never advances [pos], so the sub-stack chosen is always the first one. *)
Definition ms_removeLast (M : mstack) : option mstack :=
  match sorted M with
  | [] => None
  | k0 :: _ =>
    let k := if bfirst M then last (sorted M) k0 else k0 in
    match st_last (stk M k) with
    | None => None
    | Some n => match eraseRecInfo (hstate (snd n)) M with
                | None => None
                | Some M => let l' := st_removeLast (stk M k) in
                            let M := put_stk M k l' in
                            Some (if length l' =? 0 then set_sorted M (kerase k (sorted M)) else M)
                end
    end
  end.
(** _smtMultiStack.h:141-171: in best-first mode the running best score starts at the score of a default hypothesis *)
Fixpoint scan_top (M : mstack) (ks : list cls) (result : hyp) (bestScore : Z) : option hyp :=
  match ks with
  | [] => Some result
  | k :: r => match st_top (stk M k) with
              | None => None
              | Some n => if (bestScore <? nscore n)%Z then scan_top M r (snd n) (nscore n) else scan_top M r result bestScore
              end
  end.
Definition ms_top (dflt : Z) (M : mstack) : option hyp :=
  match sorted M with
  | [] => None
  | k0 :: _ => match st_top (stk M k0) with
               | None => None
               | Some n0 => if bfirst M then Some (snd n0) else scan_top M (sorted M) (snd n0) dflt
               end
  end.

(** _smtMultiStack.h:222-227 *)
Definition ms_isempty (M : mstack) : bool := match sorted M with [] => true | _ => false end.
(** one client call; pop and removeLast are only called on a non-empty multi-stack *)
Definition ms_step (M : mstack) (o : ms_op) : option mstack :=
  match o with
  | Push h => option_map snd (ms_push h M)
  | Pop => if ms_isempty M then Some M else option_map snd (ms_pop M)
  | RemoveLast => if ms_isempty M then Some M else ms_removeLast M
  | SetBf b => Some (set_bf b M)
  end.
Fixpoint ms_run (ops : list ms_op) (M : mstack) : option mstack :=
  match ops with [] => Some M | o :: r => match ms_step M o with Some M' => ms_run r M' | None => None end end.
(** all hypotheses stored in the sub-stacks *)
Definition stored (M : mstack) : list hyp := flat_map (fun e => map snd (snd e)) (conts M).

(** PhrHypNumcovJumpsEqClassF.cc:34-70 with PhrHypNumcovJumps01EqClassF.cc:34-37: class of a source segmentation, (number of covered
    words, 1 if there is any jump), the default class function of the decoder (SmtModel.h:42) *)
Fixpoint seg_class_aux (prev : option nat) (segs : list (nat * nat)) : nat * nat :=
  match segs with
  | [] => (0, 0)
  | (a, b) :: r =>
    let (c, j) := seg_class_aux (Some b) r in
    (b - a + 1 + c, (match prev with None => if 1 <? a then 1 else 0 | Some e => if e + 1 =? a then 0 else 1 end) + j)
  end.
Definition seg_class01 (segs : list (nat * nat)) : nat * nat :=
  let (c, j) := seg_class_aux None segs in (c, if 1 <? j then 1 else j).
(** the parts of the decoder state that depend on the segmentation, PhraseBasedTmHypRec.h:72-83: the covered positions and the end
    of the last phrase *)
Definition seg_covers (segs : list (nat * nat)) (p : nat) : bool := existsb (fun s => (fst s <=? p) && (p <=? snd s)) segs.
Definition seg_end (segs : list (nat * nat)) : nat := match segs with [] => 0 | _ => snd (last segs (0, 0)) end.
