(** The word graph built during the search: src/stack_dec/_stackDecoderRec.h (pushGivenPredHyp 245-254, addArcToWordGraph 258-325,
    getHypStateIndex 328-350, post_trans_actions 226-238, clear 218-223), with wordGraphEnabled.  The search is that of SearchModel.v; the
    graph is that of WgModel.v.  [words] is getTransInPlainTextVec, words as numbers.  Score components are left out.
    None: an invalid access, in the containers or in the graph. *)
From Coq Require Import ZArith List Bool Arith.
From Verif Require Import AMap StackSpec StackModel SearchModel WgSpec WgModel.
Import ListNotations.
Open Scope nat_scope.
Section SearchWg.
Variables (H : Type) (enc : H -> nat) (dec : nat -> H).
Variables (st : H -> nat) (cl : H -> nat * nat) (heur : H -> Z) (dist : H -> nat) (complete : H -> bool) (succs : H -> list (H * Z)).
Variable words : H -> list nat.
Variable null : H * Z.
Variables (bf prune : bool) (I MAXIT : nat) (GEPS LOWEST WORST : Z).
Notation push := (push H enc st cl heur dist complete bf prune GEPS LOWEST).
Notation select := (select H dec heur dist complete bf GEPS).
(** decoder and word graph *)
Record gdec := { sd : decoder; gr : wg }.
(** getHypStateIndex *)
Definition stateIndex (D : decoder) (h : H) : option nat := option_map fst (aget Nat.eq_dec (st h) (sdict (cont D))).
(** addArcToWordGraph *)
Definition addArcToWordGraph (D : decoder) (pred succ : H * Z) (g : wg) : option wg :=
  match stateIndex D (fst pred), stateIndex D (fst succ) with
  | Some i, Some j =>
      let fp := (snd pred + heur (fst pred))%Z in
      let fs := (snd succ + heur (fst succ))%Z in
      let g := if i =? INITIAL_STATE then setInitialStateScore g fp else g in
      let g := if complete (fst succ) then addFinalState g j else g in
      addArc g i j (skipn (length (words (fst pred))) (words (fst succ))) (fs - fp) []
  | _, _ => Some g
  end.
(** pushGivenPredHyp *)
Definition pushGivenPredHyp (pred succ : H * Z) (X : gdec) : option gdec :=
  match push succ (sd X) with
  | None => None
  | Some D => match addArcToWordGraph D pred succ (gr X) with Some g => Some {| sd := D; gr := g |} | None => None end
  end.
(** the loops of decode, _stackDecoder.h:866-970 *)
Fixpoint g_push_all (pred : H * Z) (ws : list (H * Z)) (X : gdec) : option gdec :=
  match ws with [] => Some X | w :: r => match pushGivenPredHyp pred w X with Some X => g_push_all pred r X | None => None end end.
Fixpoint g_process (ws : list (H * Z)) (found : bool) (result : H * Z) (X : gdec) : option (bool * (H * Z) * gdec) :=
  match ws with
  | [] => Some (found, result, X)
  | w :: r =>
      if complete (fst w) then
        if negb found then g_process r true w X
        else match push w (sd X) with Some D => g_process r found result {| sd := D; gr := gr X |} | None => None end
      else
        let result := if dist (fst result) <? dist (fst w) then w
                      else if (dist (fst result) =? dist (fst w)) && (snd result <? snd w)%Z then w else result in
        match g_push_all w (rev (SearchModel.expand H succs w)) X with Some X => g_process r found result X | None => None end
  end.
Fixpoint g_loop (todo iter : nat) (result : H * Z) (X : gdec) : option ((H * Z) * nat * gdec) :=
  match todo with
  | 0 => Some (result, iter, X)
  | S todo =>
      match select I (sd X) with
      | None => None
      | Some ([], D) => Some (result, S iter, {| sd := D; gr := gr X |})
      | Some (ws, D) =>
          match g_process ws false result {| sd := D; gr := gr X |} with
          | None => None
          | Some (true, result, X) => Some (result, S iter, X)
          | Some (false, result, X) => g_loop todo (S iter) result X
          end
      end
  end.
Definition g_decode (X : gdec) : option ((H * Z) * nat * gdec) := g_loop (MAXIT - 1) 1 null X.
(** post_trans_actions; the index of an unknown state is 0 *)
Definition post_trans_actions (result : H * Z) (X : gdec) : gdec :=
  if complete (fst result) then X
  else {| sd := sd X; gr := addFinalState (gr X) (match stateIndex (sd X) (fst result) with Some i => i | None => 0 end) |}.
(** translateWithSuggestion :361-410 *)
Definition g_translate (max : nat) (flag : bool) (start : H * Z) : option ((H * Z) * nat * gdec) :=
  match push start (cleared WORST max flag) with
  | None => None
  | Some D => match g_decode {| sd := D; gr := wg_new |} with Some (r, it, X) => Some (r, it, post_trans_actions r X) | None => None end
  end.
(** getNextTrans :324-357: without post_trans_actions *)
Definition g_next (X : gdec) : option ((H * Z) * nat * gdec) := g_decode {| sd := {| cont := cont (sd X); bestComplete := WORST |}; gr := gr X |}.
Fixpoint g_next_n (n : nat) (X : gdec) : option (list ((H * Z) * nat) * gdec) :=
  match n with
  | 0 => Some ([], X)
  | S n => match g_next X with
           | None => None
           | Some (r, it, X) => match g_next_n n X with Some (l, X) => Some ((r, it) :: l, X) | None => None end
           end
  end.
Definition g_session (max : nat) (flag : bool) (start : H * Z) (n : nat) : option (list ((H * Z) * nat) * gdec) :=
  match g_translate max flag start with
  | None => None
  | Some (r, it, X) => match g_next_n n X with Some (l, X) => Some ((r, it) :: l, X) | None => None end
  end.
End SearchWg.
