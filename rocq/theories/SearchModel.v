(** The decoder's search loop: src/stack_dec/_stackDecoder.h (push 751-802, pop 805-847, decode 859-975, getNextTrans 324-357, translate
    310-400 after the model has prepared the sentence) for multi_stack_decoder_rec, whose container is the multi-stack of StackModel.
    Scores are integers: rounding in adding and subtracting heuristics is not modelled.  The translation model is given by its operations:
    [succs] (expand, with the score of each extension), [heur] (addHeuristicToHyp / subtractHeuristicToHyp), [dist] (distToNullHyp),
    [complete], [st] and [cl] (getHypState, getEqClass).  Word graph output and statistics are left out.
    None: the container dereferences an invalid position. *)
From Coq Require Import ZArith List Bool Arith.
From Verif Require Import StackSpec StackModel.
Import ListNotations.
Section Search.
Variables (H : Type) (enc : H -> nat) (dec : nat -> H).
Variables (st : H -> nat) (cl : H -> nat * nat) (heur : H -> Z) (dist : H -> nat) (complete : H -> bool) (succs : H -> list (H * Z)).
Variable null : H * Z.
(** breadthFirst, applyBestScorePruning :164-169, I, MAX_NUM_OF_ITER and G_EPSILON :51-53, -FLT_MAX, worstScoreAllowed *)
Variables (bf prune : bool) (I MAXIT : nat) (GEPS LOWEST WORST : Z).

(** a hypothesis: its contents and its current score *)
Definition whyp := (H * Z)%type.
Definition in_stack (w : whyp) : hyp := {| hscore := snd w; hstate := st (fst w); hclass := cl (fst w); hdata := enc (fst w) |}.
Definition from_stack (h : hyp) : whyp := (dec (hdata h), hscore h).
(** addHeuristicToHyp; addgToHyp :289-299 *)
Definition gval (h : H) : Z := (Z.of_nat (dist h) * GEPS)%Z.
Definition addHeuristic (w : whyp) : whyp := (fst w, (snd w + heur (fst w))%Z).
Definition subtractHeuristic (w : whyp) : whyp := (fst w, (snd w - heur (fst w))%Z).
Definition addg (w : whyp) : whyp := (fst w, (snd w + gval (fst w))%Z).
Definition subtractg (w : whyp) : whyp := (fst w, (snd w - gval (fst w))%Z).

(** the decoder: its container and bestCompleteHypScore (bestCompleteHyp is written but never read) *)
Record decoder := { cont : mstack; bestComplete : Z }.
(** push :751-802 *)
Definition push (w : whyp) (D : decoder) : option decoder :=
  if (LOWEST <=? snd w)%Z then
    let w := addHeuristic w in
    let w := if bf then addg w else w in
    if negb prune || (bestComplete D <=? snd w)%Z then
      match ms_push (in_stack w) (cont D) with
      | None => None
      | Some (inserted, M) => Some {| cont := M; bestComplete := if inserted && complete (fst w) then snd w else bestComplete D |}
      end
    else Some D
  else Some D.
(** pop :805-847.  In breadth-first mode a complete hypothesis on top is taken from the whole container, not from the first sub-stack. *)
Definition pop (D : decoder) : option (whyp * decoder) :=
  if bf then
    let M := set_bf true (cont D) in
    match ms_top 0 M with
    | None => None
    | Some t =>
      if complete (fst (from_stack t)) then
        match ms_pop (set_bf false M) with
        | None => None
        | Some (h, M) => Some (subtractHeuristic (subtractg (from_stack h)), {| cont := set_bf true M; bestComplete := bestComplete D |})
        end
      else match ms_pop M with
           | None => None
           | Some (h, M) => Some (subtractHeuristic (subtractg (from_stack h)), {| cont := M; bestComplete := bestComplete D |})
           end
    end
  else match ms_pop (cont D) with
       | None => None
       | Some (h, M) => Some (subtractHeuristic (from_stack h), {| cont := M; bestComplete := bestComplete D |})
       end.
(** the selection loop :879-882 *)
Fixpoint select (n : nat) (D : decoder) : option (list whyp * decoder) :=
  match n with
  | 0 => Some ([], D)
  | S n => if ms_isempty (cont D) then Some ([], D) else
           match pop D with
           | None => None
           | Some (w, D) => match select n D with Some (ws, D) => Some (w :: ws, D) | None => None end
           end
  end.
(** pushing the expansions, last one first :945-960 *)
Fixpoint push_all (ws : list whyp) (D : decoder) : option decoder :=
  match ws with [] => Some D | w :: r => match push w D with Some D => push_all r D | None => None end end.
Definition expand (w : whyp) : list whyp := map (fun x => (fst x, (snd w + snd x)%Z)) (succs (fst w)).
(** the loop over the selected hypotheses :897-962; [found] is the variable end *)
Fixpoint process (ws : list whyp) (found : bool) (result : whyp) (D : decoder) : option (bool * whyp * decoder) :=
  match ws with
  | [] => Some (found, result, D)
  | w :: r =>
      if complete (fst w) then
        if negb found then process r true w D
        else match push w D with Some D => process r found result D | None => None end
      else
        let result := if dist (fst result) <? dist (fst w) then w
                      else if (dist (fst result) =? dist (fst w)) && (snd result <? snd w)%Z then w else result in
        match push_all (rev (expand w)) D with Some D => process r found result D | None => None end
  end.
(** the main loop of decode :866-970; [todo] counts the iterations left (iterNo < MAX_NUM_OF_ITER), [iter] is iterNo *)
Fixpoint decode_loop (todo iter : nat) (result : whyp) (D : decoder) : option (whyp * nat * decoder) :=
  match todo with
  | 0 => Some (result, iter, D)
  | S todo =>
      match select I D with
      | None => None
      | Some ([], D) => Some (result, S iter, D)
      | Some (ws, D) =>
          match process ws false result D with
          | None => None
          | Some (true, result, D) => Some (result, S iter, D)
          | Some (false, result, D) => decode_loop todo (S iter) result D
          end
      end
  end.
(** decode :859-975: the translation, the final value of iterNo (the iteration limit was hit when it is at least MAX_NUM_OF_ITER) *)
Definition decode (D : decoder) : option (whyp * nat * decoder) := decode_loop (MAXIT - 1) 1 null D.
(** getNextTrans :324-357 in the state left by translate *)
Definition getNextTrans (D : decoder) : option (whyp * nat * decoder) := decode {| cont := cont D; bestComplete := WORST |}.
(** translateWithSuggestion :361-410: clear (the dictionary is cleared too, _stackDecoderRec.h:211; the container keeps its size and its
    breadth-first flag [flag]), push the initial hypothesis, decode *)
Definition cleared (max : nat) (flag : bool) : decoder := {| cont := set_bf flag (ms_empty max); bestComplete := WORST |}.
Definition translate (max : nat) (flag : bool) (start : whyp) : option (whyp * nat * decoder) :=
  match push start (cleared max flag) with Some D => decode D | None => None end.
(** a translation followed by [n] calls for the next one *)
Fixpoint next_n (n : nat) (D : decoder) : option (list (whyp * nat) * decoder) :=
  match n with
  | 0 => Some ([], D)
  | S n => match getNextTrans D with
           | None => None
           | Some (r, it, D) => match next_n n D with Some (l, D) => Some ((r, it) :: l, D) | None => None end
           end
  end.
Definition session (max : nat) (flag : bool) (start : whyp) (n : nat) : option (list (whyp * nat) * decoder) :=
  match translate max flag start with
  | None => None
  | Some (r, it, D) => match next_n n D with Some (l, D) => Some ((r, it) :: l, D) | None => None end
  end.
End Search.
