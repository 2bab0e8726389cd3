(** /repo/src/sw_models/anjiMatrix.{h,cc}.  Floats are integers here (only stored, copied and compared with the marker 99).
    anji_maxnsize: None is UNRESTRICTED_ANJI_SIZE.  Writing outside a vector (undefined behaviour) is None. *)
From Coq Require Import ZArith List.
From Verif Require Import AnjiSpec.
Import ListNotations.
Open Scope Z_scope.
Definition INVALID_ANJI_VAL : Z := 99.                                   (* anjiMatrix.h:46 *)
Record anjiM := { maxn : option nat; ptr : nat; anji : list (list (list Z)); np2n : list (bool * nat); n2np : list (bool * nat) }.
(** while(l.size()<=k) l.push_back(d) *)
Definition grow {A} (d : A) (k : nat) (l : list A) : list A := l ++ repeat d (S k - length l).
Fixpoint setn {A} (k : nat) (v : A) (l : list A) : list A :=
  match l, k with [], _ => [] | _ :: r, O => v :: r | x :: r, S k' => x :: setn k' v r end.
(** read_np_to_n_vector / read_n_to_np_vector, lines 503-521 *)
Definition read_vec (l : list (bool * nat)) (k : nat) : bool * nat := nth k l (false, 0%nat).
(** update_np_to_n_vector / update_n_to_np_vector, lines 524-546 *)
Definition update_vec (k : nat) (v : bool * nat) (l : list (bool * nat)) : list (bool * nat) := setn k v (grow (false, 0%nat) k l).
(** n_is_mapped_in_matrix, lines 433-455 *)
Definition is_mapped (M : anjiM) (n : nat) : option nat :=
  match maxn M with
  | None => if Nat.ltb n (length (anji M)) then Some n else None
  | Some _ => let p := read_vec (n2np M) n in if fst p then Some (snd p) else None
  end.
(** map_n_in_matrix, lines 458-500 *)
Definition map_n (M : anjiM) (n : nat) : option (anjiM * nat) :=
  match maxn M with
  | None => Some (M, n)
  | Some m =>
    match is_mapped M n with
    | Some np => Some (M, np)
    | None =>
      let np := ptr M in
      let p' := if Nat.leb m (S (ptr M)) then 0%nat else S (ptr M) in
      let old := read_vec (np2n M) np in
      let M1 :=
        if fst old then
          (if Nat.ltb np (length (anji M)) then
             Some {| maxn := maxn M; ptr := p'; anji := setn np [] (anji M); np2n := np2n M; n2np := update_vec (snd old) (false, 0%nat) (n2np M) |}
           else None)  (* anji[np] with np>=anji.size() *)
        else Some {| maxn := maxn M; ptr := p'; anji := anji M; np2n := np2n M; n2np := n2np M |} in
      match M1 with
      | None => None
      | Some M1 => Some ({| maxn := maxn M1; ptr := ptr M1; anji := anji M1; np2n := update_vec np (true, n) (np2n M1); n2np := update_vec n (true, np) (n2np M1) |}, np)
      end
    end
  end.
Definition with_anji (M : anjiM) (a : list (list (list Z))) : anjiM := {| maxn := maxn M; ptr := ptr M; anji := a; np2n := np2n M; n2np := n2np M |}.
(** set, lines 322-352 *)
Definition set_rows (j i : nat) (f : Z) (rows : list (list Z)) : list (list Z) :=
  let rows := grow [] j rows in setn j (setn i f (grow INVALID_ANJI_VAL i (nth j rows []))) rows.
Definition set (M : anjiM) (n j i : nat) (f : Z) : option anjiM :=
  if stores (maxn M) then
    match map_n M n with
    | None => None
    | Some (M, np) => let a := grow [] np (anji M) in Some (with_anji M (setn np (set_rows j i f (nth np a [])) a))
    end
  else Some M.
(** get, lines 366-381 *)
Definition get (M : anjiM) (n j i : nat) : Z :=
  match is_mapped M n with
  | None => INVALID_ANJI_VAL
  | Some np =>
    match nth_error (anji M) np with None => INVALID_ANJI_VAL | Some rows =>
    match nth_error rows j with None => INVALID_ANJI_VAL | Some row =>
    match nth_error row i with None => INVALID_ANJI_VAL | Some f => f end end end
  end.
(** resizeIsRequired, lines 81-95 *)
Definition resize_required (rows : list (list Z)) (nslen tlen : nat) : bool :=
  if Nat.leb (length rows) tlen then true else Nat.leb (length (nth 0 rows [])) nslen.
(** init_nth_entry, lines 50-78; None result inside Some: THOT_ERROR *)
Definition init_nth_entry (M : anjiM) (n nslen tlen : nat) : option (anjiM * option nat) :=
  if stores (maxn M) then
    match map_n M n with
    | None => None
    | Some (M, np) =>
      let a := grow [] np (anji M) in
      let rows := nth np a [] in
      let rows := if resize_required rows nslen tlen then repeat (repeat INVALID_ANJI_VAL (S nslen)) (S tlen) else rows in
      Some (with_anji M (setn np rows a), Some np)
    end
  else Some (M, None).
(** set_fast, lines 355-362: unchecked indexing *)
Definition set_fast (M : anjiM) (np j i : nat) (f : Z) : option anjiM :=
  if stores (maxn M) then
    match nth_error (anji M) np with None => None | Some rows =>
    match nth_error rows j with None => None | Some row =>
    if Nat.ltb i (length row) then Some (with_anji M (setn np (setn j (setn i f row) rows) (anji M))) else None end end
  else Some M.
(** reset_entries, lines 98-116 *)
Definition reset_entries (M : anjiM) : anjiM :=
  if stores (maxn M) then with_anji M (map (map (map (fun _ => INVALID_ANJI_VAL))) (anji M)) else M.
(** clear, lines 549-555; set_maxnsize, lines 119-123; constructor, lines 44-48 *)
Definition clear (M : anjiM) : anjiM := {| maxn := maxn M; ptr := 0; anji := []; np2n := []; n2np := [] |}.
Definition set_maxnsize (M : anjiM) (m : option nat) : anjiM := {| maxn := m; ptr := 0; anji := []; np2n := []; n2np := [] |}.
Definition anji_new : anjiM := {| maxn := None; ptr := 0; anji := []; np2n := []; n2np := [] |}.
Fixpoint writes (M : anjiM) (np : nat) (ws : list (nat * nat * Z)) : option anjiM :=
  match ws with [] => Some M | (j, i, v) :: r => match set_fast M np j i v with None => None | Some M' => writes M' np r end end.
Definition do_op (M : anjiM) (o : op) : option anjiM :=
  match o with
  | Set_ n j i v => set M n j i v
  | Visit n slen tlen ws =>
      (* the pattern of _incrHmmAligModel.cc:719-830 and IncrIbm1AligModel.cc: init_nth_entry, then set_fast on the mapped index *)
      match init_nth_entry M n slen tlen with None => None | Some (M', Some np) => writes M' np ws | Some (M', None) => writes M' 0 ws end
  | Clear => Some (clear M)
  | Reset => Some (reset_entries M)
  | SetMax m => Some (set_maxnsize M m)
  end.
Fixpoint run (M : anjiM) (os : list op) : option anjiM :=
  match os with [] => Some M | o :: r => match do_op M o with None => None | Some M' => run M' r end end.
(** print_anji_values, lines 249-280: one record per stored cell, in order *)
Definition indexed {A} (l : list A) : list (nat * A) := combine (seq 0 (length l)) l.
Definition print_values (M : anjiM) : list (nat * nat * nat * Z) :=
  flat_map (fun p => flat_map (fun r => map (fun c => (fst p, fst r, fst c, snd c)) (indexed (snd r))) (indexed (snd p))) (indexed (anji M)).
(** print_maxnsize_data, lines 283-308: the bound, the pointer, and the used slots; printed only for a bounded matrix (line 238) *)
Definition print_ms (M : anjiM) : option (nat * nat * list (nat * nat)) :=
  match maxn M with
  | None => None
  | Some m => Some (m, ptr M, map (fun p => (fst p, snd (snd p))) (filter (fun p => fst (snd p)) (indexed (np2n M))))
  end.
(** load_anji_values, lines 169-199 *)
Fixpoint load_values (M : anjiM) (rs : list (nat * nat * nat * Z)) : option anjiM :=
  match rs with [] => Some M | (n, j, i, v) :: r => match set M n j i v with None => None | Some M' => load_values M' r end end.
(** load_maxnsize_data, lines 202-231 *)
Definition load_ms (M : anjiM) (d : nat * nat * list (nat * nat)) : anjiM :=
  let '(m, p, l) := d in
  fold_left (fun M' x => {| maxn := maxn M'; ptr := ptr M'; anji := anji M'; np2n := update_vec (fst x) (true, snd x) (np2n M'); n2np := update_vec (snd x) (true, fst x) (n2np M') |})
    l {| maxn := Some m; ptr := p; anji := anji M; np2n := np2n M; n2np := n2np M |}.
(** load, lines 144-166; ms = None: no .msinfo file *)
Definition load (M : anjiM) (rs : list (nat * nat * nat * Z)) (ms : option (nat * nat * list (nat * nat))) : option anjiM :=
  match load_values (clear M) rs with
  | None => None
  | Some M' => Some (match ms with Some d => load_ms M' d | None => {| maxn := None; ptr := ptr M'; anji := anji M'; np2n := np2n M'; n2np := n2np M' |} end)
  end.
