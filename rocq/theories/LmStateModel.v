(** States, sentence scores and perplexity of an n-gram model: src/incr_models/_incrNgramLM.h:248-345, src/nlp_common/BaseNgramLM.h:175-303.
    [lgp w h] is getNgramLgProb(w,h) (a double, here a real); [stoi] is stringToWordIndex.  Output to cerr is not modelled. *)
From Coq Require Import Ascii String Arith List Bool Reals.
Import ListNotations.
Open Scope nat_scope.

(** vector assignment state[i]=x; None when out of range *)
Fixpoint upd {A} (i : nat) (x : A) (l : list A) : option (list A) :=
  match l, i with
  | [], _ => None
  | _ :: r, 0 => Some (x :: r)
  | y :: r, S i' => match upd i' x r with Some r' => Some (y :: r') | None => None end
  end.
(** the loop "for(i=1;i<state.size();++i) state[i-1]=state[i]" of _incrNgramLM.h:308 *)
Fixpoint shift_loop {A} (fuel i : nat) (st : list A) : option (list A) :=
  match fuel with
  | 0 => Some st
  | S f => if i <? length st
           then match nth_error st i with
                | Some x => match upd (i - 1) x st with Some st' => shift_loop f (S i) st' | None => None end
                | None => None
                end
           else Some st
  end.
(** addNextWordToState _incrNgramLM.h:305-310 *)
Definition addNextWordToState {A} (w : A) (st : list A) : option (list A) :=
  match shift_loop (length st) 1 st with
  | None => None
  | Some st' => if 0 <? length st' then upd (length st' - 1) w st' else Some st'
  end.
(** getStateForBeginOfSentence _incrNgramLM.h:289-301; order is unsigned, order-1 is evaluated only if order>0 *)
Fixpoint push_bos (n bos : nat) (st : list nat) : list nat := match n with 0 => st | S k => push_bos k bos (st ++ [bos]) end.
Definition getStateForBeginOfSentence (order bos : nat) : list nat := if 0 <? order then push_bos (order - 1) bos [] else [].

Section LM.
Variable lgp : nat -> list nat -> R.
Variables bos eos order : nat.
(** getNgramLgProbGivenState :314-322, getLgProbEndGivenState :337-345 *)
Definition getNgramLgProbGivenState (w : nat) (st : list nat) : option (R * list nat) :=
  let lp := lgp w st in match addNextWordToState w st with Some st' => Some (lp, st') | None => None end.
Definition getLgProbEndGivenState (st : list nat) : option (R * list nat) :=
  let lp := lgp eos st in match addNextWordToState eos st with Some st' => Some (lp, st') | None => None end.
(** the main loop of getSentenceLog10Prob BaseNgramLM.h:204-213: s is first reversed into aux, then walked from the last index down to 0 *)
Fixpoint sent_loop (i : nat) (s : list nat) (st : list nat) (total : R) : option (R * list nat) :=
  match i with
  | 0 => Some (total, st)
  | S i' => match nth_error s i' with
            | None => None
            | Some w => match getNgramLgProbGivenState w st with
                        | Some (lp, st') => sent_loop i' s st' (total + lp)
                        | None => None
                        end
            end
  end.
(** BaseNgramLM.h:202-203: aux.push_back(s[s.size()-1-i]) *)
Definition rev_copy (s : list nat) : list nat := map (fun i => nth (length s - 1 - i) s 0) (seq 0 (length s)).
Definition getSentenceLog10Prob (s : list nat) : option R :=
  let st := getStateForBeginOfSentence order bos in
  let s' := rev_copy s in
  match sent_loop (length s') s' st 0%R with
  | None => None
  | Some (total, st) => match getLgProbEndGivenState st with
                        | None => None
                        | Some (lp, _) => Some ((total + lp) * (1 / ln 10))%R
                        end
  end.
Variable stoi : string -> nat.
(** getSentenceLog10ProbStr :175-187 *)
Definition getSentenceLog10ProbStr (s : list string) : option R := getSentenceLog10Prob (map stoi s).
(** the loop of perplexity :264-298 over the lines of the corpus (each the list of its fields).  [logp] is the local variable, which is not
    initialised: None until the first non-empty line; adding it then is None. *)
Fixpoint perp_loop (lines : list (list string)) (logp : option R) (nw ns : nat) (total : R) : option (nat * nat * R) :=
  match lines with
  | [] => Some (nw, ns, total)
  | v :: r =>
      match v with
      | [] => match logp with None => None | Some x => perp_loop r logp nw (S ns) (total + x)%R end
      | _ => match getSentenceLog10ProbStr v with
             | None => None
             | Some x => perp_loop r (Some x) (nw + length v) (S ns) (total + x)%R
             end
      end
  end.
(** perplexity :244-303: number of sentences, words, total log10 probability and perplexity.  An empty corpus gives 0/0 *)
Definition perplexity (lines : list (list string)) : option (nat * nat * R * R) :=
  match perp_loop lines None 0 0 0%R with
  | None => None
  | Some (nw, ns, total) => if nw + ns =? 0 then None else Some (ns, nw, total, exp (- (total / INR (nw + ns)) * ln 10)%R)
  end.
End LM.
