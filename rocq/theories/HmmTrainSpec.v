(** Incremental EM for the HMM alignment model of HmmSpec.v: what the program's training is to compute, with its thresholds.
    Words are numbers, 0 is the NULL word.  A sentence pair with n source words has the states 1..2n. *)
From Coq Require Import Reals NArith Arith List Bool.
From Verif Require Import RSums Ibm1Spec HmmSpec.
Import ListNotations.
Open Scope R_scope.
Definition tiny : R := exp (- 99999).
(** joint probability of the target words, of the state i' at target position j and of the state i at position j+1 (from 0) *)
Definition pair_joint {T} trans emit (n : nat) (t : list T) (j i' i : nat) : R :=
  sumf (fun a => path_prob trans emit 0 a t) (filter (fun a => Nat.eqb (nth j a 0%nat) i' && Nat.eqb (nth (S j) a 0%nat) i) (paths n (length t))).
(** logs of counts: of a word pair, of a word; of a transition (row, number of words, column), of a row *)
Record params := { lcount : N -> N -> option R; ltotal : N -> option R; tcount : nat -> nat -> nat -> option R; ttotal : nat -> nat -> option R }.
Section SPEC.
Variable V : nat.                    (* target vocabulary size *)
Variables lamL lamA : R.             (* smoothing *)
Variable p0 : option R.              (* fixed probability of NULL *)
Definition state_word (s : list N) (i : nat) : N := if Nat.leb i (length s) then nth (i - 1) s 0%N else 0%N.
Definition sm_emit (P : params) (s : list N) (i : nat) (w : N) : R :=
  interpolated lamL (match lcount P (state_word s i) w, ltotal P (state_word s i) with Some a, Some b => exp a / exp b | _, _ => tiny end) V.
Definition sm_trans (P : params) (n prev i : nat) : R :=
  if in_dec Nat.eq_dec i (dests n prev) then interpolated lamA (raw_trans (tcount P) (ttotal P) tiny p0 n prev i) (length (dests n prev)) else tiny.
(** expectations: relative weights, each at least [tiny], brought into [exp(-9), exp(-1/100)] *)
Definition at_least_tiny (x : R) : R := Rmax x tiny.
Definition clamped (x : R) : R := Rmax (exp (- 9)) (Rmin (exp (- / 100)) x).
(** with a fixed probability of NULL only the words are counted as states *)
Definition counted (n : nat) : nat := match p0 with None => 2 * n | Some _ => n end.
Record expect := { state_ex : nat -> nat -> R;           (* target position, state *)
                   first_ex : nat -> R;                  (* state of the first target word *)
                   trans_ex : nat -> nat -> nat -> R }.  (* target positions j, j+1; states at j and at j+1 *)
Definition expectations (P : params) (p : pair) : expect :=
  let n := length (src p) in let tr := sm_trans P n in let em := sm_emit P (src p) in let sts := seq 1 (2 * n) in let cts := seq 1 (counted n) in
  let g := fun j i => at_least_tiny (state_joint tr em n (trg p) j i) in
  (* a NULL state of the first word is given the weight of the first of them *)
  let f := fun i => at_least_tiny (state_joint tr em n (trg p) 0 (if Nat.leb i n then i else n + 1)) in
  let h := fun j i' i => if in_dec Nat.eq_dec i (dests n i') then at_least_tiny (pair_joint tr em n (trg p) j i' i) else tiny in
  {| state_ex := fun j i => clamped (g j i / sumf (g j) sts);
     first_ex := fun i => clamped (f i / sumf f cts);
     trans_ex := fun j i' i => clamped (h j i' i / sumf (fun k => sumf (fun k' => h j k' k) cts) cts) |}.
End SPEC.
(** expected counts of one sentence pair *)
Definition lex_cnt (p : pair) (x : expect) (s t : N) : R :=
  weight p * sumf (fun j => sumf (fun i => if N.eqb (state_word (src p) i) s && N.eqb (nth j (trg p) 0%N) t then state_ex x j i else 0) (seq 1 (2 * length (src p)))) (seq 0 (length (trg p))).
(** transitions are counted by the previous state itself (0: the start), for sentences of n words *)
Definition trans_cnt (p0 : option R) (p : pair) (x : expect) (row n col : nat) : R :=
  if Nat.eqb n (length (src p)) && Nat.leb row (counted p0 n) && Nat.leb 1 col && Nat.leb col (counted p0 n) then
    weight p * (if Nat.eqb row 0 then first_ex x col
                else if in_dec Nat.eq_dec col (dests n row) then sumf (fun j => trans_ex x j row col) (seq 0 (length (trg p) - 1)) else 0)
  else 0.
Definition hiem : Type := (list pair * (nat -> option expect))%type.
Definition over {A} (x : hiem) (f : pair -> expect -> A -> R) (a : A) : R := sumf (fun n => match snd x n with Some e => f (nth n (fst x) no_pair) e a | None => 0 end) (seq 0 (length (fst x))).
Definition log_count (c : R) : option R := if Rlt_dec 0 c then Some (ln c) else None.
Definition lex_total (x : hiem) (s t : N) : R := over x (fun p e k => lex_cnt p e (fst k) (snd k)) (s, t).
Definition trans_total (p0 : option R) (x : hiem) (row n col : nat) : R := over x (fun p e k => trans_cnt p0 p e (fst (fst k)) (snd (fst k)) (snd k)) (row, n, col).
Definition params_of (p0 : option R) (x : hiem) : params :=
  {| lcount := fun s t => log_count (lex_total x s t); ltotal := fun s => log_count (sumf (lex_total x s) (nodup N.eq_dec (flat_map trg (fst x))));
     tcount := fun row n col => log_count (trans_total p0 x row n col); ttotal := fun row n => log_count (sumf (trans_total p0 x row n) (seq 1 (2 * n))) |}.
Definition husable (p : pair) : Prop := (1 <= length (src p) <= 200)%nat /\ (1 <= length (trg p) <= 200)%nat.
Definition husableb (p : pair) : bool := Nat.leb 1 (length (src p)) && Nat.leb (length (src p)) 200 && Nat.leb 1 (length (trg p)) && Nat.leb (length (trg p)) 200.
(** the usable pairs of a range get new expectations, computed with the parameters before the pass *)
Section IEM.
Variable voc : list pair -> nat.
Variables lamL lamA : R.
Variable p0 : option R.
Definition hiem_train (range : list nat) (x : hiem) : hiem :=
  (fst x, fun n => if (if in_dec Nat.eq_dec n range then true else false) && husableb (nth n (fst x) no_pair)
                   then Some (expectations (voc (fst x)) lamL lamA p0 (params_of p0 x) (nth n (fst x) no_pair)) else snd x n).
Definition hiem_op (x : hiem) (o : em_op) : hiem :=
  match o with AddPair p => (fst x ++ [p], snd x) | Train b e => hiem_train (range_of b e) x end.
Definition hiem_new : hiem := ([], fun _ => None).
End IEM.
(** pairs have a weight that a positive float can hold and no NULL word in the source; ranges lie in the corpus *)
Definition float_weight (p : pair) : Prop := exp (- 104) <= weight p.
Fixpoint hlegal (len : nat) (ops : list em_op) : Prop :=
  match ops with
  | [] => True
  | AddPair p :: r => float_weight p /\ ~ In 0%N (src p) /\ hlegal (S len) r
  | Train b e :: r => (e < len)%nat /\ hlegal len r
  end.
