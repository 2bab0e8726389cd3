(** IBM model 2 (Brown et al. 1993): as model 1, but target position j (from 1) of a sentence of length m chooses source position i (0 is NULL)
    of a sentence of length l with probability al j l m i. *)
From Coq Require Import Reals NArith List.
From Verif Require Import RSums Ibm1Spec.
Import ListNotations.
Open Scope R_scope.
Definition apos : Type := (nat * nat * nat)%type.                  (* (j, l, m) *)
Section SPEC.
Variable p : N -> N -> R.            (* p s t: probability of target word t given source word s *)
Variable al : apos -> nat -> R.      (* al (j,l,m) i *)
(** target position (from 0) k of the sentence t is generated from source position i *)
Definition gen2 (ns t : list N) (k i : nat) : R := p (nth i ns 0%N) (nth k t 0%N) * al (S k, pred (length ns), length t) i.
(** joint probability of alignment and target words (without the length model) *)
Definition joint2 (ns t : list N) (a : list nat) : R := prodf (fun k => gen2 ns t k (nth k a 0%nat)) (seq 0 (length t)).
Definition total2 (ns t : list N) : R := sumf (joint2 ns t) (alignments (pred (length ns)) (length t)).
Definition posterior2 (ns t : list N) (j i : nat) : R :=
  sumf (joint2 ns t) (filter (fun a => Nat.eqb (nth j a 0%nat) i) (alignments (pred (length ns)) (length t))) / total2 ns t.
End SPEC.
(** ---- training.  Expected number of times that position (j,l,m) is linked with i, for one sentence pair with expectations m *)
Definition alig_count (p : pair) (m : list (list R)) (k : apos) (i : nat) : R :=
  let '(j, l, len) := k in
  if (Nat.eqb l (length (src p)) && Nat.eqb len (length (trg p)) && Nat.leb 1 j && Nat.leb j len && Nat.leb i l)%bool
  then at_least_1e6 (weight p * nth i (nth (pred j) m []) 0) else 0.
Definition alig_counts (D : list pair) (ex : nat -> option (list (list R))) (k : apos) (i : nat) : R :=
  sumf (fun n => match ex n with Some m => alig_count (nth n D no_pair) m k i | None => 0 end) (seq 0 (length D)).
(** relative frequency over the source positions 0..l *)
Definition alig_freq (c : apos -> nat -> R) (k : apos) (i : nat) : R := c k i / sumf (c k) (seq 0 (S (snd (fst k)))).
(** Expectation step: each target position is distributed over the source positions (and NULL) in proportion to lexical times alignment
    probability; a parameter never seen (probability 0) counts as 0.1, products below 1e-6 count as 1e-6 *)
Definition seen_or (x : R) : R := if Rlt_dec 0 x then x else 1 / 10.
Definition raw2 (q : N -> N -> R) (al : apos -> nat -> R) (p : pair) (k i : nat) : R :=
  Rmax (seen_or (q (nth i (with_null (src p)) 0%N) (nth k (trg p) 0%N)) * seen_or (al (S k, length (src p), length (trg p)) i)) (/ 1000000).
Definition estep2 (q : N -> N -> R) (al : apos -> nat -> R) (p : pair) : list (list R) :=
  map (fun k => map (fun i => raw2 q al p k i / sumf (raw2 q al p k) (seq 0 (S (length (src p))))) (seq 0 (S (length (src p))))) (seq 0 (length (trg p))).
(** Incremental EM of both parameter sets; the state is that of Ibm1Spec.iem *)
Definition iem2_alig (x : iem) : apos -> nat -> R := alig_freq (alig_counts (fst x) (snd x)).
Definition iem2_train (range : list nat) (x : iem) : iem :=
  (fst x, fun n => if in_dec Nat.eq_dec n (training_set (fst x) range) then Some (estep2 (iem_prob x) (iem2_alig x) (nth n (fst x) no_pair)) else snd x n).
Definition iem2_op (x : iem) (o : em_op) : iem :=
  match o with AddPair p => (fst x ++ [p], snd x) | Train b e => iem2_train (range_of b e) x end.
(** none of the thresholds of the program is active on the sentence pairs ps *)
Definition thresholds_inactive2 (p : N -> N -> R) (al : apos -> nat -> R) (ps : list pair) : Prop :=
  forall q k i, In q ps -> (k < length (trg q))%nat -> (i <= length (src q))%nat ->
    let g := gen2 p al (with_null (src q)) (trg q) k in
    / 1000000 <= g i /\ / 1000000 <= weight q * (g i / sumf g (seq 0 (S (length (src q))))).
