(** /repo/src/error_correction/WordGraph.{h,cc} and NbSearchStack.{h,cc}.
    Scores (double) are integers; words are opaque numbers.  Access outside a vector (undefined behaviour) is [None].
    finalStateSet (std::set<unsigned>) is its sorted list of elements. *)
From Coq Require Import ZArith List Bool.
From Verif Require Import WgSpec.
Import ListNotations.
Open Scope Z_scope.
Definition SMALL_SCORE : Z := -999999999.                                (* WordGraph.h:59 *)
Definition INITIAL_STATE : nat := 0.                                     (* WordGraph.h:54 *)
Definition NBEST_MAX_STACK_SIZE : nat := Z.to_nat 10000.                 (* WordGraph.h:60 *)
(** WordGraphStateData.h *)
Record stdata := { toSucc : list nat; toPred : list nat }.
Definition st_empty : stdata := {| toSucc := []; toPred := [] |}.
Record wg := { arcs : list arc; arcsPruned : list bool; states : list stdata; finals : list nat; comps : list (list Z); initScore : Z }.
(** WordGraph(), lines 32-35, and clear(), lines 1437-1446 *)
Definition wg_new : wg := {| arcs := []; arcsPruned := []; states := []; finals := []; comps := []; initScore := 0 |}.
Notation "'do' x <- a ; b" := (match a with Some x => b | None => None end) (at level 200, x name, a at level 100, b at level 200).
(** v[k]=f(v[k]); None if k is outside v *)
Fixpoint upd {A} (k : nat) (f : A -> A) (v : list A) : option (list A) :=
  match v, k with
  | [], _ => None
  | x :: r, O => Some (f x :: r)
  | x :: r, S k' => do r' <- upd k' f r; Some (x :: r')
  end.
Definition add_succ (id : nat) (d : stdata) := {| toSucc := toSucc d ++ [id]; toPred := toPred d |}.
Definition add_pred (id : nat) (d : stdata) := {| toSucc := toSucc d; toPred := toPred d ++ [id] |}.
(** addArcWithScrComps, lines 124-141, with addArc, lines 75-121 (addArc is the case of an empty [scr]).  The two
    branches of addArc differ only in the growth of wordGraphStates, which is void when succ<wordGraphStates.size(). *)
Definition addArc (g : wg) (pred succ : nat) (words : list nat) (score : Z) (scr : list Z) : option wg :=
  let id := length (arcs g) in
  let st0 := states g ++ repeat st_empty (S succ - length (states g)) in
  do st1 <- upd pred (add_succ id) st0;
  do st2 <- upd succ (add_pred id) st1;
  Some {| arcs := arcs g ++ [{| a_pred := pred; a_succ := succ; a_score := score; a_words := words |}];
          arcsPruned := arcsPruned g ++ [false]; states := st2; finals := finals g; comps := comps g ++ [scr]; initScore := initScore g |}.
Fixpoint set_insert (x : nat) (l : list nat) : list nat :=
  match l with [] => [x] | y :: r => if Nat.ltb x y then x :: l else if Nat.eqb x y then l else y :: set_insert x r end.
(** addFinalState, lines 144-153 *)
Definition addFinalState (g : wg) (s : nat) : wg :=
  {| arcs := arcs g; arcsPruned := arcsPruned g; states := states g; finals := set_insert s (finals g); comps := comps g; initScore := initScore g |}.
(** setInitialStateScore, lines 156-159 *)
Definition setInitialStateScore (g : wg) (z : Z) : wg :=
  {| arcs := arcs g; arcsPruned := arcsPruned g; states := states g; finals := finals g; comps := comps g; initScore := z |}.
(** the loop of getArcIdsToPredStates / getArcIdsToSuccStates: keep the ids whose arcsPruned bit is false *)
Fixpoint not_pruned (pr : list bool) (ids : list nat) : option (list nat) :=
  match ids with
  | [] => Some []
  | i :: r => do b <- nth_error pr i; do r' <- not_pruned pr r; Some (if b : bool then r' else i :: r')
  end.
(** getArcIdsToPredStates, lines 233-253 *)
Definition getArcIdsToPredStates (g : wg) (s : nat) : option (list nat) :=
  match nth_error (states g) s with Some d => not_pruned (arcsPruned g) (toPred d) | None => Some [] end.
(** getArcIdsToSuccStates, lines 271-291 *)
Definition getArcIdsToSuccStates (g : wg) (s : nat) : option (list nat) :=
  match nth_error (states g) s with Some d => not_pruned (arcsPruned g) (toSucc d) | None => Some [] end.
(** stateIsFinal, lines 301-310 *)
Definition stateIsFinal (g : wg) (s : nat) : bool := existsb (Nat.eqb s) (finals g).

(** Loops "for each arc id in [ids]: if not pruned, act on the arc", carrying a vector. *)
Fixpoint for_arcs {A} (g : wg) (f : nat -> arc -> A -> option A) (ids : list nat) (v : A) : option A :=
  match ids with
  | [] => Some v
  | i :: r =>
    do b <- nth_error (arcsPruned g) i;
    do v' <- (if b : bool then Some v else do a <- nth_error (arcs g) i; f i a v);
    for_arcs g f r v'
  end.
Definition fwd (g : wg) : list nat := seq 0 (length (arcs g)).
Definition bwd (g : wg) : list nat := rev (fwd g).
(** for each final state: v[s]=z *)
Fixpoint set_finals {A} (z : A) (fs : list nat) (v : list A) : option (list A) :=
  match fs with [] => Some v | s :: r => do v' <- upd s (fun _ => z) v; set_finals z r v' end.
(** body of the loop of obtainNbSearchHeurInfo, lines 425-431 *)
Definition heur_step (_ : nat) (a : arc) (h : list Z) : option (list Z) :=
  do hs <- nth_error h (a_succ a);
  do hp <- nth_error h (a_pred a);
  let scr := a_score a + hs in
  if hp <? scr then upd (a_pred a) (fun _ => scr) h else Some h.
(** obtainNbSearchHeurInfo, lines 406-433 *)
Definition obtainNbSearchHeurInfo (g : wg) : option (list Z) :=
  do h0 <- set_finals 0 (finals g) (repeat SMALL_SCORE (length (states g)));
  for_arcs g heur_step (bwd g) h0.

(** NbSearchStack: multimap ordered by decreasing score; an insertion goes after the entries with the same score.
    push, NbSearchStack.cc:37-48.  The second component of the result is what the size limit made it drop (ghost). *)
Definition shyp : Type := Z * list nat.
Fixpoint nb_insert (e : shyp) (st : list shyp) : list shyp :=
  match st with [] => [e] | x :: r => if fst x <? fst e then e :: st else x :: nb_insert e r end.
Definition nb_push (max : option nat) (e : shyp) (st : list shyp) : list shyp * list shyp :=
  let st' := nb_insert e st in match max with None => (st', []) | Some m => (firstn m st', skipn m st') end.
Fixpoint nb_pushes (max : option nat) (es : list shyp) (st : list shyp) : list shyp * list shyp :=
  match es with
  | [] => (st, [])
  | e :: r => let '(st1, d1) := nb_push max e st in let '(st2, d2) := nb_pushes max r st1 in (st2, d1 ++ d2)
  end.
(** wordGraphArcId2WordGraphArc(hyp.back()).succStateIndex, or INITIAL_STATE for the null hypothesis (lines 477-483) *)
Definition last_state (g : wg) (h : list nat) : option nat :=
  match rev h with [] => Some INITIAL_STATE | i :: _ => do a <- nth_error (arcs g) i; Some (a_succ a) end.
(** hypIsComplete, lines 597-609 *)
Definition hypIsComplete (g : wg) (h : list nat) : option bool :=
  match h with [] => Some false | _ :: _ => do s <- last_state g h; Some (stateIsFinal g s) end.
(** expansion loop, lines 510-531: [g0] is the score without heuristic *)
Fixpoint expand (g : wg) (heur : list Z) (g0 : Z) (h : list nat) (ids : list nat) : option (list shyp) :=
  match ids with
  | [] => Some []
  | i :: r =>
    do b <- nth_error (arcsPruned g) i;
    do r' <- expand g heur g0 h r;
    if b : bool then Some r' else
    do a <- nth_error (arcs g) i; do hs <- nth_error heur (a_succ a);
    Some ((g0 + a_score a + hs, h ++ [i]) :: r')
  end.
Record nbst := { stack : list shyp; done : list shyp; dropped : list shyp (* ghost: hypotheses lost to the size limit *) }.
(** one iteration of the loop of nbSearch, lines 460-551; [inr] is the end of the loop *)
Definition nb_iter (g : wg) (heur : list Z) (max : option nat) (len : nat) (s : nbst) : option (nbst + nbst) :=
  if Nat.leb len (length (done s)) then Some (inr s) else
  match stack s with
  | [] => Some (inr s)
  | (f, h) :: st =>
    do ls <- last_state g h;
    do hl <- nth_error heur ls;
    let g0 := f - hl in
    do c <- hypIsComplete g h;
    if c : bool then Some (inl {| stack := st; done := fst (nb_push None (g0, h) (done s)); dropped := dropped s |})
    else
      do ids <- getArcIdsToSuccStates g ls;
      do es <- expand g heur g0 h ids;
      let '(st', d) := nb_pushes max es st in
      Some (inl {| stack := st'; done := done s; dropped := dropped s ++ d |})
  end.
(** the loop; None also when the fuel does not suffice *)
Fixpoint nb_loop (fuel : nat) (g : wg) (heur : list Z) (max : option nat) (len : nat) (s : nbst) : option nbst :=
  match fuel with
  | O => None
  | S k => do r <- nb_iter g heur max len s; match r with inr s' => Some s' | inl s' => nb_loop k g heur max len s' end
  end.
(** nbSearch, lines 436-594: the list of (score, arcs of the hypothesis); popping completeHypStack from the top yields
    it in container order (lines 560-577).  Strings and verbose output are not part of this function. *)
Definition nbSearch (fuel : nat) (g : wg) (heur : list Z) (max : option nat) (len : nat) : option nbst :=
  do h0 <- nth_error heur INITIAL_STATE;
  let '(st, d) := nb_push max (initScore g + h0, []) [] in
  nb_loop fuel g heur max len {| stack := st; done := []; dropped := d |}.
(** obtainNbestList, lines 360-390 *)
Definition obtainNbestList (fuel : nat) (g : wg) (len : nat) : option nbst :=
  match arcs g with
  | [] => Some {| stack := []; done := []; dropped := [] |}
  | _ :: _ => do heur <- obtainNbSearchHeurInfo g; nbSearch fuel g heur (Some NBEST_MAX_STACK_SIZE) len
  end.
(** stringAssociatedToHyp, lines 612-645: the word sequence (as opposed to its rendering with blanks) and the
    accumulated score components; the code reads scrCompsVec[arc][k] for each k below the size of the first vector. *)
Fixpoint add_comps (acc c : list Z) : option (list Z) :=
  match acc, c with
  | [], _ => Some []
  | x :: a, y :: r => do r' <- add_comps a r; Some (x + y :: r')
  | _ :: _, [] => None
  end.
Fixpoint sum_comps (g : wg) (acc : list Z) (p : list nat) : option (list Z) :=
  match p with [] => Some acc | i :: r => do c <- nth_error (comps g) i; do acc' <- add_comps acc c; sum_comps g acc' r end.
Definition hypComps (g : wg) (p : list nat) : option (list Z) :=
  match p with [] => Some [] | i :: r => do c <- nth_error (comps g) i; sum_comps g c r end.

(** obtainStatesReachableFromInit, lines 1144-1163 *)
Definition reach_step (_ : nat) (a : arc) (v : list bool) : option (list bool) :=
  do p <- nth_error v (a_pred a);
  if p : bool then upd (a_succ a) (fun _ => true) v else Some v.
Definition obtainStatesReachableFromInit (g : wg) : option (list bool) :=
  let v := repeat false (length (states g)) in
  let v := match v with [] => [] | _ :: r => true :: r end in
  for_arcs g reach_step (fwd g) v.
(** obtainUsefulStates, lines 1166-1214 (finals loop, then the reverse scan) *)
Fixpoint useful_finals (g : wg) (fs : list nat) (v : list bool) : option (list bool) :=
  match fs with
  | [] => Some v
  | s :: r =>
    do ids <- getArcIdsToPredStates g s;
    do v' <- (match ids with [] => Some v | _ :: _ => upd s (fun _ => true) v end);
    useful_finals g r v'
  end.
Definition useful_step (reach : list bool) (_ : nat) (a : arc) (v : list bool) : option (list bool) :=
  do p <- nth_error reach (a_pred a);
  do s <- nth_error v (a_succ a);
  if (p : bool) && s then upd (a_pred a) (fun _ => true) v else Some v.
Definition usefulVec (g : wg) : option (list bool) :=
  do v <- useful_finals g (finals g) (repeat false (length (states g)));
  do reach <- obtainStatesReachableFromInit g;
  for_arcs g (useful_step reach) (bwd g) v.
(** remappedStates, lines 1216-1231, as the association list it builds (in increasing key order) *)
Fixpoint remap (v : list bool) (idx newIdx : nat) : list (nat * nat) :=
  match v with [] => [] | b :: r => if b : bool then (idx, newIdx) :: remap r (S idx) (S newIdx) else remap r (S idx) newIdx end.
Definition obtainUsefulStates (g : wg) : option (list bool * list (nat * nat)) :=
  do v <- usefulVec g; Some (v, remap v 0 INITIAL_STATE).
Fixpoint assoc (k : nat) (m : list (nat * nat)) : option nat :=
  match m with [] => None | (x, y) :: r => if Nat.eqb k x then Some y else assoc k r end.
(** obtainWgComposedOfUsefulStates, lines 648-713; dereferencing remappedStates.end() would be None *)
Definition regen_arc (v : list bool) (m : list (nat * nat)) (cs : list (list Z)) (i : nat) (a : arc) (g' : wg) : option wg :=
  do c <- nth_error cs i;
  do p <- nth_error v (a_pred a);
  (if p : bool then do s <- nth_error v (a_succ a);
     if s : bool then do p' <- assoc (a_pred a) m; do s' <- assoc (a_succ a) m; addArc g' p' s' (a_words a) (a_score a) c
     else Some g'
   else Some g').
Definition regen_finals (fs : list nat) (m : list (nat * nat)) (g' : wg) : wg :=
  fold_left (fun g' s => match assoc s m with Some s' => addFinalState g' s' | None => g' end) fs g'.
Definition obtainWgComposedOfUsefulStates (g : wg) : option wg :=
  match arcs g with
  | [] => Some g
  | _ :: _ =>
    do vm <- obtainUsefulStates g;
    let '(v, m) := vm in
    let g0 := {| arcs := []; arcsPruned := []; states := []; finals := []; comps := []; initScore := initScore g |} in
    for_arcs g (regen_arc v m (comps g)) (fwd g) (regen_finals (finals g) m g0)
  end.

(** orderArcsTopol, lines 717-799.  State of the passes: output arc ids, arcAdded, stateClosed. *)
Record ost := { out : list nat; added : list bool; closed : list bool; any : bool }.
Fixpoint all_pred_closed (g : wg) (cl : list bool) (ids : list nat) : option bool :=
  match ids with
  | [] => Some true
  | i :: r => do a <- nth_error (arcs g) i; do c <- nth_error cl (a_pred a); if c : bool then all_pred_closed g cl r else Some false
  end.
Fixpoint all_added (ad : list bool) (ids : list nat) : option bool :=
  match ids with [] => Some true | i :: r => do c <- nth_error ad i; if c : bool then all_added ad r else Some false end.
Definition order_step (g : wg) (i : nat) (s : ost) : option ost :=
  do ad <- nth_error (added s) i;
  if ad : bool then Some s else
  do a <- nth_error (arcs g) i;
  do ids <- getArcIdsToPredStates g (a_pred a);
  do c1 <- all_pred_closed g (closed s) ids;
  do c2 <- all_added (added s) ids;
  if (c1 : bool) && (c2 : bool) then
    do ad' <- upd i (fun _ => true) (added s);
    do cl' <- upd (a_pred a) (fun _ => true) (closed s);
    Some {| out := out s ++ [i]; added := ad'; closed := cl'; any := true |}
  else Some s.
Fixpoint order_pass (g : wg) (ids : list nat) (s : ost) : option ost :=
  match ids with [] => Some s | i :: r => do s' <- order_step g i s; order_pass g r s' end.
Fixpoint order_loop (fuel : nat) (g : wg) (s : ost) : option ost :=
  if Nat.leb (length (arcs g)) (length (out s)) then Some s else
  match fuel with
  | O => None
  | S k =>
    do s' <- order_pass g (fwd g) {| out := out s; added := added s; closed := closed s; any := false |};
    if any s' then order_loop k g s' else Some s'
  end.
(** every pass but the last adds an arc, so length(arcs)+1 passes suffice *)
Definition orderArcsTopol (g : wg) : option wg :=
  let n := length (arcs g) in
  do s <- order_loop (S n) g {| out := []; added := repeat false n; closed := repeat false (length (states g)); any := false |};
  if Nat.eqb (length (out s)) n then
    Some {| arcs := flat_map (fun i => match nth_error (arcs g) i with Some a => [a] | None => [] end) (out s);
            arcsPruned := arcsPruned g; states := states g; finals := finals g; comps := comps g; initScore := initScore g |}
  else Some g.

(** calcPrevScores, lines 802-905, without alternative weights.  bestPredArcForStateVec entries never written are
    value-uninitialised WordGraphArc objects: None. *)
Record pst := { prev : list Z; best : list (option nat); access : list bool }.
Definition prev_step (excl : list nat) (i : nat) (a : arc) (s : pst) : option pst :=
  do acc <- nth_error (access s) (a_pred a);
  do ps <- nth_error (prev s) (a_succ a);
  if acc : bool then
    do pp <- nth_error (prev s) (a_pred a);
    let score := a_score a + pp in
    let score := if existsb (Nat.eqb i) excl then SMALL_SCORE else score in
    let score := if score <? SMALL_SCORE then SMALL_SCORE else score in
    do acc' <- upd (a_succ a) (fun _ => true) (access s);
    if ps <? score then
      do pv <- upd (a_succ a) (fun _ => score) (prev s);
      do bs <- upd (a_succ a) (fun _ => Some i) (best s);
      Some {| prev := pv; best := bs; access := acc' |}
    else Some {| prev := prev s; best := best s; access := acc' |}
  else
    do accs <- nth_error (access s) (a_succ a);
    if accs : bool then Some s
    else do pv <- upd (a_succ a) (fun _ => SMALL_SCORE) (prev s); Some {| prev := pv; best := best s; access := access s |}.
Definition calcPrevScores (g : wg) (s0 : nat) (excl : list nat) : option pst :=
  match arcs g with
  | [] => Some {| prev := []; best := []; access := [] |}
  | _ :: _ =>
    let n := length (states g) in
    do pv <- upd s0 (fun _ => if Nat.eqb s0 INITIAL_STATE then initScore g else 0) (repeat SMALL_SCORE n);
    do acc <- upd s0 (fun _ => true) (repeat false n);
    for_arcs g (prev_step excl) (fwd g) {| prev := pv; best := repeat None n; access := acc |}
  end.
(** calcRestScores, lines 943-972 *)
Definition rest_step (_ : nat) (a : arc) (h : list Z) : option (list Z) :=
  do hs <- nth_error h (a_succ a);
  do hp <- nth_error h (a_pred a);
  let score := a_score a + hs in
  let score := if score <? SMALL_SCORE then SMALL_SCORE else score in
  if hp <? score then upd (a_pred a) (fun _ => score) h else Some h.
Definition calcRestScores (g : wg) : option (list Z) :=
  do h0 <- set_finals (initScore g) (finals g) (repeat SMALL_SCORE (length (states g)));
  for_arcs g rest_step (bwd g) h0.
(** best final state, lines 1016-1028 *)
Fixpoint best_final (pv : list Z) (fs : list nat) (b : Z * nat) : option (Z * nat) :=
  match fs with
  | [] => Some b
  | s :: r => do z <- nth_error pv s; best_final pv r (if fst b <? z then (z, s) else b)
  end.
(** back-pointer walk, lines 1032-1052: arc ids from the final state back to [s0]; None if the loop does not end within
    the fuel or follows a pointer never set *)
Fixpoint back_walk (fuel : nat) (g : wg) (bp : list (option nat)) (s0 idx : nat) : option (list nat) :=
  if Nat.eqb idx s0 then Some [] else
  match fuel with
  | O => None
  | S k => do o <- nth_error bp idx; do i <- o; do a <- nth_error (arcs g) i; do r <- back_walk k g bp s0 (a_pred a); Some (i :: r)
  end.
(** bestPathFromFinalStateToIdx, lines 975-1053 *)
Definition bestPathFromFinalStateToIdx (fuel : nat) (g : wg) (s0 : nat) (excl : list nat) : option (Z * list nat) :=
  do ps <- calcPrevScores g s0 excl;
  do b <- best_final (prev ps) (finals g) (SMALL_SCORE, INITIAL_STATE);
  if stateIsFinal g (snd b) then do p <- back_walk fuel g (best ps) s0 (snd b); Some (fst b, p) else Some (fst b, []).
(** pruneArcsToPredStates, lines 1056-1120; [lt] is logThreshold *)
Fixpoint prune_ids (g : wg) (pv rs : list Z) (limit : Z) (ids : list nat) (st : list bool * nat) : option (list bool * nat) :=
  match ids with
  | [] => Some st
  | i :: r =>
    do a <- nth_error (arcs g) i;
    do p <- nth_error pv (a_pred a);
    do q <- nth_error rs (a_succ a);
    let bad := p + a_score a + q <? limit in
    do pr <- upd i (fun _ => bad) (fst st);
    prune_ids g pv rs limit r (pr, if bad then S (snd st) else snd st)
  end.
Fixpoint prune_states (g : wg) (pv rs : list Z) (limit : Z) (ds : list stdata) (st : list bool * nat) : option (list bool * nat) :=
  match ds with [] => Some st | d :: r => do st' <- prune_ids g pv rs limit (toPred d) st; prune_states g pv rs limit r st' end.
Definition pruneArcs (g : wg) (lt : Z) : option (wg * nat) :=
  do rs <- calcRestScores g;
  do ps <- calcPrevScores g INITIAL_STATE [];
  do b <- best_final (prev ps) (finals g) (SMALL_SCORE, INITIAL_STATE);
  do st <- prune_states g (prev ps) rs (fst b + lt) (states g) (arcsPruned g, 0%nat);
  Some ({| arcs := arcs g; arcsPruned := fst st; states := states g; finals := finals g; comps := comps g; initScore := initScore g |}, snd st).
(** prune with UNLIMITED_DENSITY, lines 337-343 *)
Definition unprune (g : wg) : wg :=
  {| arcs := arcs g; arcsPruned := map (fun _ => false) (arcsPruned g); states := states g; finals := finals g; comps := comps g; initScore := initScore g |}.

(** Histories of calls building a word graph (all public mutators except orderArcsTopol, load, obtainWgComposedOfUsefulStates); [wgop] is in WgSpec. *)
Definition wg_op (o : wgop) (g : wg) : option wg :=
  match o with
  | OArc p s w z c => addArc g p s w z c
  | OFinal s => Some (addFinalState g s)
  | OInit z => Some (setInitialStateScore g z)
  | OPrune lt => do r <- pruneArcs g lt; Some (fst r)
  | OUnprune => Some (unprune g)
  end.
Fixpoint wg_run (ops : list wgop) (g : wg) : option wg :=
  match ops with [] => Some g | o :: r => do g' <- wg_op o g; wg_run r g' end.
