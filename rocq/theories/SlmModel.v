(** /repo/src/sw_models/WeightedIncrNormSlm.cc: the sentence length model.  float/double as real numbers; a division by a zero standard deviation
    as IEEE does it: (x-mean)/0 is +-infinity, where erf is +-1, and NaN for x=mean (None).  [erf] is a parameter.  numSents, slenSum, tlenSum
    are unsigned, without overflow; Count weights are reals.  Files are not modelled. *)
From Coq Require Import Reals Arith ZArith List Bool.
From Verif Require Import HmmModel.
Import ListNotations.
Open Scope R_scope.
Record slm := { numSents : nat; slenSum : nat; tlenSum : nat; kVec : list nat; swkVec : list R; mkVec : list R; skVec : list R }.
(** :32-37, clear :370-380 *)
Definition slm_new : slm := {| numSents := 0; slenSum := 0; tlenSum := 0; kVec := []; swkVec := []; mkVec := []; skVec := [] |}.
(** :238-259; found is k<>0 *)
Definition get_k (m : slm) (slen : nat) : nat := nth slen (kVec m) 0%nat.
(** :262-268 and the other setters *)
Definition set_at {A} (d : A) (slen : nat) (v : A) (l : list A) : list A := setn slen v (grow d slen l).
(** :271-275 and the other getters *)
Definition get_swk (m : slm) (slen : nat) : R := nth slen (swkVec m) 0.
Definition get_mk (m : slm) (slen : nat) : R := nth slen (mkVec m) 0.
Definition get_sk (m : slm) (slen : nat) : R := nth slen (skVec m) 0.
(** :322-367 *)
Definition trainSentPair (m : slm) (slen tlen : nat) (c : R) : slm :=
  let k := get_k m slen in
  let n := S (numSents m) in let ss := (slenSum m + slen)%nat in let ts := (tlenSum m + tlen)%nat in
  if Nat.eqb k 0 then
    {| numSents := n; slenSum := ss; tlenSum := ts; kVec := set_at 0%nat slen 1%nat (kVec m); skVec := set_at 0 slen 0 (skVec m);
       mkVec := set_at 0 slen (INR tlen) (mkVec m); swkVec := set_at 0 slen c (swkVec m) |}
  else
    let swk := get_swk m slen in let temp := c + swk in let mk := get_mk m slen in let sk := get_sk m slen in
    {| numSents := n; slenSum := ss; tlenSum := ts; kVec := set_at 0%nat slen (S k) (kVec m);
       skVec := set_at 0 slen (sk + swk * c * ((INR tlen - mk) * (INR tlen - mk)) / temp) (skVec m);
       mkVec := set_at 0 slen (mk + (INR tlen - mk) * c / temp) (mkVec m); swkVec := set_at 0 slen temp (swkVec m) |}.
(** :181-197 *)
Definition get_mean_stddev (m : slm) (slen : nat) : option (R * R) :=
  let k := get_k m slen in
  if Nat.ltb k 2 then None else Some (get_mk m slen, sqrt (get_sk m slen * INR k / (INR (k - 1) * get_swk m slen))).
Section ERF.
Variable erf : R -> R.
(** nlp_common/MathFuncs.cc:220-235 *)
Definition norm_std_cdf (x : R) : R := / 2 * (1 + erf (x / sqrt 2)).
Definition norm_cdf (mean stddev x : R) : option R :=
  if Req_EM_T stddev 0 then (if Rlt_dec mean x then Some 1 else if Rlt_dec x mean then Some 0 else None)
  else Some (norm_std_cdf ((x - mean) / stddev)).
(** :149-178; the argument tlen is an unsigned (32 bits), here the number it holds *)
Definition fallback_mean (m : slm) (slen : nat) : R :=
  INR slen + (if Nat.eqb (numSents m) 0 then 0 else INR (tlenSum m) / INR (numSents m) - INR (slenSum m) / INR (numSents m)).
Definition sumSentLenProbNorm (m : slm) (slen : nat) (tlen : Z) : option R :=
  match get_mean_stddev m slen with
  | Some (mean, stddev) => norm_cdf mean stddev (IZR tlen + / 2)
  | None => let mean := fallback_mean m slen in norm_cdf mean (mean * / 4) (IZR tlen + / 2)
  end.
(** tlen-1 on 32 bits *)
Definition pred_u32 (t : Z) : Z := ((t - 1) mod 4294967296)%Z.
Definition SW_PROB_SMOOTH : R := / 10000000.
(** :135-146 *)
Definition sentLenLgProbNorm (m : slm) (slen : nat) (tlen : Z) : option R :=
  match sumSentLenProbNorm m slen tlen, sumSentLenProbNorm m slen (pred_u32 tlen) with
  | Some a, Some b => Some (if Rlt_dec (a - b) SW_PROB_SMOOTH then ln SW_PROB_SMOOTH else ln (a - b))
  | _, _ => None
  end.
(** :106-111 *)
Definition sentLenProb (m : slm) (slen : nat) (tlen : Z) : option R := option_map exp (sentLenLgProbNorm m slen tlen).
End ERF.
(** a training history *)
Definition train_all (h : list (nat * nat * R)) : slm := fold_left (fun m o => trainSentPair m (fst (fst o)) (snd (fst o)) (snd o)) h slm_new.
