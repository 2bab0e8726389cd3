(** Word-graph files and component weights: /repo/src/error_correction/WordGraph.cc.  Scores and weights are exact rationals (GfmtModel);
    wordGraphArcs and scrCompsVec, which always have the same length, are one list. *)
From Coq Require Import Ascii String Arith ZArith NArith QArith List Bool.
From Verif Require Import TextSpec TextModel VocabSpec VocabModel WgModel PmModel GfmtModel WgfSpec.
Import ListNotations.
Record fwg := mkfwg { w_arcs : list farc; w_pruned : list bool; w_states : list stdata; w_finals : list nat; w_init : Q; w_weights : list (str * Q) }.
(** WordGraph() :31-34, clear :1437-1446 *)
Definition w_clear : fwg := mkfwg [] [] [] [] 0 [].
(** addArcWithScrComps :125-141, addArc :75-122 (as WgModel.addArc) *)
Definition w_addArc (p s : nat) (words : list str) (score : Q) (comps : list Q) (g : fwg) : option fwg :=
  let id := length (w_arcs g) in
  let st0 := w_states g ++ repeat st_empty (S s - length (w_states g)) in
  match upd p (add_succ id) st0 with
  | None => None
  | Some st1 => match upd s (add_pred id) st1 with
                | None => None
                | Some st2 => Some (mkfwg (w_arcs g ++ [mkfarc p s score words comps]) (w_pruned g ++ [false]) st2 (w_finals g) (w_init g) (w_weights g))
                end
  end.
(** addFinalState :144-153 *)
Definition w_addFinal (s : nat) (g : fwg) : fwg := mkfwg (w_arcs g) (w_pruned g) (w_states g) (set_insert s (w_finals g)) (w_init g) (w_weights g).
(** rescoreArcsGivenWeights :47-66 *)
Fixpoint acc_score (acc : Q) (ws : list (str * Q)) (cs : list Q) : Q :=
  match ws, cs with w :: ws', c :: cs' => acc_score (acc + snd w * c) ws' cs' | _, _ => acc end.
Definition rescore_arc (ws : list (str * Q)) (a : farc) : farc :=
  if Nat.eqb (length (f_comps a)) (length ws) then mkfarc (f_pred a) (f_succ a) (acc_score 0 ws (f_comps a)) (f_words a) (f_comps a) else a.
(** setCompWeights :37-44 *)
Definition w_setCompWeights (ws : list (str * Q)) (g : fwg) : fwg :=
  mkfwg (map (rescore_arc ws) (w_arcs g)) (w_pruned g) (w_states g) (w_finals g) (w_init g) ws.
Definition w_step (g : fwg) (o : wcall) : option fwg :=
  match o with
  | WArc p s w z c => w_addArc p s w z c g
  | WFinal s => Some (w_addFinal s g)
  | WPrune v => Some (if Nat.eqb (length v) (length (w_pruned g)) then mkfwg (w_arcs g) v (w_states g) (w_finals g) (w_init g) (w_weights g) else g)
  | WInit z => Some (mkfwg (w_arcs g) (w_pruned g) (w_states g) (w_finals g) z (w_weights g))       (* setInitialStateScore :156-159 *)
  | WWeights l => Some (w_setCompWeights l g)
  end.
Fixpoint w_run (h : list wcall) (g : fwg) : option fwg := match h with [] => Some g | o :: r => match w_step g o with None => None | Some g' => w_run r g' end end.

(** finalStatePruned :1123-1142 with getArcIdsToPredStates :233-252 *)
Definition finalStatePruned (g : fwg) (s : nat) : option bool :=
  match nth_error (w_states g) s with
  | None => Some true
  | Some d => match not_pruned (w_pruned g) (toPred d) with None => None | Some ids => Some (match ids with [] => true | _ => false end) end
  end.
(** print :1349-1417 with printOnlyUsefulStates=false *)
Fixpoint weights_text (ws : list (str * Q)) : str :=
  match ws with
  | [] => []
  | [w] => fst w ++ T " " ++ fmt_g (snd w)
  | w :: r => fst w ++ T " " ++ fmt_g (snd w) ++ T " , " ++ weights_text r
  end.
Fixpoint printed_finals (g : fwg) (l : list nat) : option (list nat) :=
  match l with
  | [] => Some []
  | s :: r => match finalStatePruned g s, printed_finals g r with Some b, Some r' => Some (if b then r' else s :: r') | _, _ => None end
  end.
Definition finals_text (l : list nat) : str := concat (map (fun s => dec s ++ [SP]) l).
Fixpoint words_text (ws : list str) : str := match ws with [] => [] | [w] => w | w :: r => w ++ SP :: words_text r end.
Definition arc_text (a : farc) : str :=
  dec (f_pred a) ++ T " " ++ dec (f_succ a) ++ T " " ++ fmt_g (f_score a) ++ T " " ++
  (match f_comps a with [] => [] | cs => T "||| " ++ concat (map (fun c => fmt_g c ++ [SP]) cs) ++ T "||| " end) ++ words_text (f_words a).
Fixpoint arcs_text (l : list farc) (v : list bool) : option (list str) :=
  match l, v with
  | [], _ => Some []
  | a :: l', b :: v' => match arcs_text l' v' with None => None | Some r => Some (if b then r else arc_text a :: r) end
  | _ :: _, [] => None
  end.
Definition w_print (g : fwg) : option str :=
  match printed_finals g (w_finals g), arcs_text (w_arcs g) (w_pruned g) with
  | Some fs, Some ls => Some (concat (map (fun l => l ++ [NL]) ((match w_weights g with [] => [] | ws => [T "# " ++ weights_text ws] end) ++ finals_text fs :: ls)))
  | _, _ => None
  end.

(** load :1236-1326.  The weights loop: i=2; i<=NF; i+=3 *)
Fixpoint read_weights (fuel : nat) (buf : str) (NF i : nat) : option (list (str * Q)) :=
  match fuel with
  | O => None
  | S f => if (NF <? i)%nat then Some []
           else match dollar SP buf i, dollar SP buf (i + 1) with
                | Some n, Some t => match atofq t, read_weights f buf NF (i + 3) with Some w, Some r => Some ((n, w) :: r) | _, _ => None end
                | _, _ => None
                end
  end.
(** for(i=1;i<=NF;++i) finalStateSet.insert(atoi(dollar(i))) *)
Fixpoint read_finals (fuel : nat) (buf : str) (NF i : nat) (acc : list nat) : option (list nat) :=
  match fuel with
  | O => None
  | S f => if (NF <? i)%nat then Some acc
           else match dollar SP buf i with
                | None => None
                | Some t => match atoi t with None => None | Some s => read_finals f buf NF (i + 1) (set_insert s acc) end
                end
  end.
(** while(dollar(col)!="|||" && col<=NF) *)
Fixpoint read_comps (fuel : nat) (buf : str) (NF col : nat) : option (list Q * nat) :=
  match fuel with
  | O => None
  | S f => match dollar SP buf col with
           | None => None
           | Some t => if str_dec t (T "|||") then Some ([], col)
                       else if (NF <? col)%nat then Some ([], col)
                       else match atofq t, read_comps f buf NF (col + 1) with Some c, Some (cs, k) => Some (c :: cs, k) | _, _ => None end
           end
  end.
Fixpoint read_words (fuel : nat) (buf : str) (NF col : nat) : option (list str) :=
  match fuel with
  | O => None
  | S f => if (NF <? col)%nat then Some []
           else match dollar SP buf col, read_words f buf NF (col + 1) with Some w, Some r => Some (w :: r) | _, _ => None end
  end.
Definition load_arc (buf : str) (g : fwg) : option fwg :=
  match get_NF SP buf with
  | None => None
  | Some NF =>
      if (3 <=? NF)%nat then
        match dollar SP buf 1, dollar SP buf 2, dollar SP buf 3, dollar SP buf 4 with
        | Some t1, Some t2, Some t3, Some t4 =>
            match atoi t1, atoi t2, atofq t3 with
            | Some p, Some s, Some z =>
                match (if str_dec t4 (T "|||") then match read_comps (S (S NF)) buf NF 5 with None => None | Some (cs, col) => Some (cs, (col + 1)%nat) end else Some ([], 4%nat)) with
                | None => None
                | Some (cs, col) => match read_words (S (S NF)) buf NF col with None => None | Some ws => w_addArc p s ws z cs g end
                end
            | _, _, _ => None
            end
        | _, _, _, _ => None
        end
      else Some g
  end.
Fixpoint load_arcs (ls : list str) (g : fwg) : option fwg :=
  match ls with [] => Some g | l :: r => match load_arc l g with None => None | Some g' => load_arcs r g' end end.
(** the final-states line and the arcs *)
Definition load_rest (ws : list (str * Q)) (ls : list str) : option fwg :=
  match ls with
  | [] => None                                                    (* stale buffer: outside the model *)
  | l :: r => match get_NF SP l with
              | None => None
              | Some NF => match read_finals (S NF) l NF 1 [] with None => None | Some fs => load_arcs r (mkfwg [] [] [] fs 0 ws) end
              end
  end.
Definition w_load (file : str) : option fwg :=
  match read_lines file with
  | None | Some [] => None
  | Some (l :: r) =>
      match get_NF SP l, dollar SP l 1 with
      | Some NF, Some t => if str_dec t (T "#") then match read_weights (S NF) l NF 2 with None => None | Some ws => load_rest ws r end else load_rest [] (l :: r)
      | _, _ => None
      end
  end.
