(** Specification for C41: a cache of sentence entries, oldest first. *)
From Coq Require Import ZArith List.
Import ListNotations.
Open Scope Z_scope.
(** what is remembered of a sentence: the room reserved by the last reservation that did not fit (target, source), and a value per pair of positions *)
Record entry := { sent : nat; dims : nat * nat; val : nat -> nat -> Z }.
Definition cache := list entry.
Definition invalid : Z := 99.
Definition blank : nat -> nat -> Z := fun _ _ => invalid.
Fixpoint look (n : nat) (q : cache) : option entry :=
  match q with [] => None | e :: r => if Nat.eq_dec (sent e) n then Some e else look n r end.
(** reading: the remembered value, or the marker *)
Definition read (q : cache) (n j i : nat) : Z := match look n q with Some e => val e j i | None => invalid end.
(** room for sentence n in a cache of at most m sentences (None: no bound): if n is new the oldest sentence leaves when the cache is full *)
Definition admit (m : option nat) (n : nat) (q : cache) : cache :=
  match look n q with
  | Some _ => q
  | None => (match m with Some k => if Nat.leb k (length q) then tl q else q | None => q end) ++ [{| sent := n; dims := (0, 0)%nat; val := blank |}]
  end.
Definition change (n : nat) (f : entry -> entry) (q : cache) : cache := map (fun e => if Nat.eq_dec (sent e) n then f e else e) q.
Definition put (j i : nat) (v : Z) (e : entry) : entry :=
  {| sent := sent e; dims := dims e; val := fun j' i' => if Nat.eq_dec j' j then if Nat.eq_dec i' i then v else val e j' i' else val e j' i' |}.
(** reserving room for positions 0..tlen, 0..slen: an entry that is too small starts afresh *)
Definition reserve (slen tlen : nat) (e : entry) : entry :=
  if orb (Nat.leb (fst (dims e)) tlen) (Nat.leb (snd (dims e)) slen) then {| sent := sent e; dims := (S tlen, S slen); val := blank |} else e.
Inductive op :=
| Set_ (n j i : nat) (v : Z)                                       (* write one value *)
| Visit (n slen tlen : nat) (ws : list (nat * nat * Z))            (* reserve room for a sentence pair, then write some of its cells *)
| Clear | Reset | SetMax (m : option nat).
Definition stores (m : option nat) : bool := match m with Some O => false | _ => true end. (* can anything be stored? *)
Definition spec_op (s : option nat * cache) (o : op) : option nat * cache :=
  let (m, q) := s in
  match o with
  | Set_ n j i v => if stores m then (m, change n (put j i v) (admit m n q)) else s
  | Visit n slen tlen ws =>
      if stores m then (m, fold_left (fun q' w => change n (put (fst (fst w)) (snd (fst w)) (snd w)) q') ws (change n (reserve slen tlen) (admit m n q))) else s
  | Clear => (m, [])
  | Reset => if stores m then (m, map (fun e => {| sent := sent e; dims := dims e; val := blank |}) q) else s
  | SetMax m' => (m', [])
  end.
Definition spec_run (os : list op) : option nat * cache := fold_left spec_op os (None, []).
(** the two ways the matrix is used: cell by cell, or reserve-then-write inside the reserved room *)
Definition cellwise (o : op) : Prop := match o with Visit _ _ _ _ => False | _ => True end.
Definition within (o : op) : Prop :=
  match o with Set_ _ _ _ _ => False | Visit _ slen tlen ws => Forall (fun w => (fst (fst w) <= tlen /\ snd (fst w) <= slen)%nat) ws | _ => True end.
