(** /repo/src/stack_dec/KbMiraLlWu.cc.  Weights and scores are exact rationals (no rounding, no NaN, -DBL_MAX is below every score).
    The scorer is any object of class BaseMiraScorer: its calls are functions of the background state.  rand() is any sequence of numbers.
    None is an assertion that fails, a read out of range or of an uninitialised structure. *)
From Coq Require Import Ascii String Arith ZArith QArith Qminmax List Bool.
From Verif Require Import TextSpec KbSpec.
Import ListNotations.
Local Open Scope nat_scope.
(** BaseMiraScorer.h; the decay argument of updateBackgroundCorpus is a constant of the object *)
Record scorer := mkscorer { bgst : Type; bg0 : bgst; sentBackgroundScore : bgst -> str -> str -> Q * list nat; updateBackgroundCorpus : bgst -> list nat -> bgst; sentScore : str -> str -> Q; corpusScore : list str -> list str -> Q }.
Definition qlt (a b : Q) : bool := negb (Qle_bool b a).
(** for k<wv.size(): score+=wv[k]*nScores[n][k] *)
Fixpoint dot (w f : vec) (acc : Q) : option Q :=
  match w, f with [], _ => Some acc | x :: w', y :: f' => dot w' f' (acc + x * y)%Q | _ :: _, [] => None end.
(** KbMiraLlWu.cc:255-271 MaxTranslation; [cur]: max_score and maxTranslation *)
Fixpoint max_loop (wv : vec) (nb : list hyp) (cur : option Q * str) : option str :=
  match nb with
  | [] => Some (snd cur)
  | (t, f) :: r => match dot wv f 0 with
                   | None => None
                   | Some s => max_loop wv r (if match fst cur with None => true | Some m => qlt m s end then (Some s, t) else cur)
                   end
  end.
Definition MaxTranslation (wv : vec) (nb : list hyp) (maxTranslation : str) : option str := max_loop wv nb (None, maxTranslation).
(** HopeFearData, and the two running totals of :274-326 *)
Record hopefear := mkhf { hopeF : vec; hopeQ : Q; hopeStats : list nat; hopeTot : Q; fearF : vec; fearQ : Q; fearTot : Q }.
Section SC.
Variable sc : scorer.
(** :274-326 HopeFear *)
Fixpoint hf_loop (bg : bgst sc) (ref : str) (nb : list hyp) (wv : vec) (cur : option hopefear) : option (option hopefear) :=
  match nb with
  | [] => Some cur
  | (t, f) :: r =>
      match dot wv f 0 with
      | None => None
      | Some score =>
          let (quality, st) := sentBackgroundScore sc bg t ref in
          let hope_scale := 1%Q in
          let cur' := match cur with
                      | None => mkhf f quality st (hope_scale * score + quality)%Q f quality (score - quality)%Q
                      | Some h =>
                          let h1 := if qlt (hopeTot h) (hope_scale * score + quality)%Q then mkhf f quality st (hope_scale * score + quality)%Q (fearF h) (fearQ h) (fearTot h) else h in
                          if qlt (fearTot h1) (score - quality)%Q then mkhf (hopeF h1) (hopeQ h1) (hopeStats h1) (hopeTot h1) f quality (score - quality)%Q else h1
                      end in
          hf_loop bg ref r wv (Some cur')
      end
  end.
(** diff[k]=hopeFeatures[k]-fearFeatures[k] *)
Fixpoint vsub (h f : vec) : option vec :=
  match h, f with [], _ => Some [] | x :: h', y :: f' => match vsub h' f' with None => None | Some r => Some ((x - y)%Q :: r) end | _ :: _, [] => None end.
(** wt[k]+=eta*diff[k] *)
Fixpoint vaxpy (eta : Q) (d w : vec) : option vec :=
  match d, w with [], _ => Some w | x :: d', y :: w' => match vaxpy eta d' w' with None => None | Some r => Some ((y + eta * x)%Q :: r) end | _ :: _, [] => None end.
(** the state of a restart *)
Record run := mkrun { r_bg : bgst sc; r_wt : vec; r_tot : vec; r_n : nat }.
(** :83-110 (:181-220): one example *)
Definition learn (c : Q) (ref : str) (nb : list hyp) (s : run) : option run :=
  match hf_loop (r_bg s) ref nb (r_wt s) None with
  | None | Some None => None
  | Some (Some h) =>
      if qlt (fearQ h) (hopeQ h) then
        match vsub (hopeF h) (fearF h) with
        | None => None
        | Some diff =>
            let delta := (hopeQ h - fearQ h)%Q in
            match dot diff (r_wt s) 0 with
            | None => None
            | Some diffScore =>
                let loss := (delta - diffScore)%Q in
                let bg' := updateBackgroundCorpus sc (r_bg s) (hopeStats h) in
                if qlt 0 loss then
                  match dot diff diff 0 with
                  | None => None
                  | Some diffNorm =>
                      let eta := if Qeq_bool diffNorm 0 then c else Qmin c (loss / diffNorm) in   (* loss/0 is infinite *)
                      match vaxpy eta diff (r_wt s) with
                      | None => None
                      | Some wt' => match vaxpy 1 (firstn (length diff) wt') (r_tot s) with
                                    | None => None
                                    | Some tot' => Some (mkrun bg' wt' tot' (S (r_n s)))
                                    end
                      end
                  end
                else Some (mkrun bg' (r_wt s) (r_tot s) (r_n s))
            end
        end
      else Some s
  end.
(** :111-114 (:223-226) *)
Definition average (s : run) : vec := map (fun t => (t / inject_Z (Z.of_nat (r_n s)))%Q) (r_tot s).
(** max_quality and max_wAvg *)
Definition maxima := (Q * vec)%type.
(** :76-132 (:170-250): the epochs of one restart, [j] done of [j + todo]; [pass] runs over the examples, [eval] is the quality of weights; [g] counts the calls of rand *)
Fixpoint epochs (pass : run -> nat -> option (run * nat)) (eval : vec -> option Q) (epochsToRestart todo j : nat) (s : run) (g : nat) (iter_max : Q * nat) (mx : maxima) : option (run * nat * maxima) :=
  match todo with
  | 0 => Some (s, g, mx)
  | S todo' =>
      match pass s g with
      | None => None
      | Some (s1, g1) =>
          let wAvg := average s1 in
          match eval wAvg with
          | None => None
          | Some quality =>
              let '(iter_max1, mx1) :=
                if qlt (fst iter_max) quality then ((quality, j), if qlt (fst mx) quality then (quality, wAvg) else mx) else (iter_max, mx) in
              if epochsToRestart <? j - snd iter_max1 then Some (s1, g1, mx1)
              else epochs pass eval epochsToRestart todo' (S j) s1 g1 iter_max1 mx1
          end
      end
  end.
Fixpoint restarts (pass : run -> nat -> option (run * nat)) (eval : vec -> option Q) (epochsToRestart nIters n : nat) (w : vec) (bg : bgst sc) (g : nat) (mx : maxima) : option vec :=
  match n with
  | 0 => Some (snd mx)
  | S n' => match epochs pass eval epochsToRestart nIters 0 (mkrun bg w w 1) g (0%Q, 0) mx with
            | None => None
            | Some (s, g', mx') => restarts pass eval epochsToRestart nIters n' w (r_bg s) g' mx'
            end
  end.
(** :61-134 update; assert of :69 *)
Definition zip (nblist : list str) (comps : list vec) : option (list hyp) := if length nblist =? length comps then Some (combine nblist comps) else None.
Definition update (c : Q) (epochsToRestart nIters maxRestarts : nat) (ref : str) (nblist : list str) (comps : list vec) (w : vec) : option vec :=
  match zip nblist comps with
  | None => None
  | Some nb => restarts (fun s g => match learn c ref nb s with None => None | Some s' => Some (s', g) end)
                        (fun a => match MaxTranslation a nb [] with None => None | Some t => Some (sentScore sc t ref) end) epochsToRestart nIters maxRestarts w (bg0 sc) 0 (0%Q, [])
  end.
(** :329-344 sampleWoReplacement; the g-th call of rand() returns rnd g *)
Fixpoint set_nth (l : list nat) (k x : nat) : list nat := match l, k with [], _ => [] | _ :: r, 0 => x :: r | y :: r, S k' => y :: set_nth r k' x end.
Fixpoint shuffle (rnd : nat -> nat) (k g : nat) (idx : list nat) : list nat * nat :=
  match k with
  | 0 => (idx, g)
  | S k' => let swap_k := rnd g mod k in
           let tmp := nth k idx 0 in
           shuffle rnd k' (S g) (set_nth (set_nth idx k (nth swap_k idx 0)) swap_k tmp)
  end.
Definition sampleWoReplacement (rnd : nat -> nat) (g n : nat) : list nat * nat := shuffle rnd (n - 1) g (seq 0 n).
(** :137-252 updateClosedCorpus; asserts of :145-146 and :181 (checked here before) *)
Fixpoint zips (nblists : list (list str)) (comps : list (list vec)) : option (list (list hyp)) :=
  match nblists, comps with
  | [], [] => Some []
  | a :: r, b :: q => match zip a b, zips r q with Some x, Some y => Some (x :: y) | _, _ => None end
  | _, _ => None
  end.
Fixpoint pass_corpus (c : Q) (ex : list (str * list hyp)) (is : list nat) (s : run) : option run :=
  match is with
  | [] => Some s
  | i :: r => match nth_error ex i with
              | None => None
              | Some (ref, nb) => match learn c ref nb s with None => None | Some s' => pass_corpus c ex r s' end
              end
  end.
(** :228-233; maxTranslation is the variable of the previous sentence *)
Fixpoint max_translations (a : vec) (nbs : list (list hyp)) (t : str) : option (list str) :=
  match nbs with
  | [] => Some []
  | nb :: r => match MaxTranslation a nb t with
               | None => None
               | Some t' => match max_translations a r t' with None => None | Some l => Some (t' :: l) end
               end
  end.
Definition updateClosedCorpus (rnd : nat -> nat) (c : Q) (epochsToRestart nIters maxRestarts : nat) (refs : list str) (nblists : list (list str)) (comps : list (list vec)) (w : vec) : option vec :=
  if negb (length nblists =? length refs) then None else
  match zips nblists comps with
  | None => None
  | Some nbs =>
      restarts (fun s g => let (is, g') := sampleWoReplacement rnd g (length refs) in match pass_corpus c (combine refs nbs) is s with None => None | Some s' => Some (s', g') end)
               (fun a => match max_translations a nbs [] with None => None | Some ts => Some (corpusScore sc ts refs) end) epochsToRestart nIters maxRestarts w (bg0 sc) 0 (0%Q, [])
  end.
End SC.
