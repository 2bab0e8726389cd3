(** Sentence length model, from the training history: pairs (source length, target length) with a weight *)
From Coq Require Import Reals Arith List Bool.
From Verif Require Import RSums.
Import ListNotations.
Open Scope R_scope.
Record obs := { o_slen : nat; o_tlen : nat; o_w : R }.
Definition seen_with (s : nat) (h : list obs) : list obs := filter (fun o => Nat.eqb (o_slen o) s) h.
Definition weight (h : list obs) : R := sumf o_w h.
Definition wmean (h : list obs) : R := sumf (fun o => o_w o * INR (o_tlen o)) h / weight h.
(** weighted variance, with Bessel's correction for the number of observations *)
Definition wvar (h : list obs) : R :=
  sumf (fun o => o_w o * ((INR (o_tlen o) - wmean h) * (INR (o_tlen o) - wmean h))) h / weight h * (INR (length h) / INR (length h - 1)).
Definition positive (h : list obs) : Prop := Forall (fun o => 0 < o_w o) h.
(** normal distribution function with the given erf *)
Definition Phi (erf : R -> R) (mean sd x : R) : R := / 2 * (1 + erf ((x - mean) / sd / sqrt 2)).
(** what is used of the error function: increasing, between -1 and 1 *)
Definition sigmoid (erf : R -> R) : Prop := (forall x y, x < y -> erf x < erf y) /\ forall x, -1 < erf x < 1.
(** the normal distribution used for a source length: the sample's if it was seen at least twice; else, around the source length plus the average
    difference of lengths, with a deviation of a quarter of the mean *)
Definition total (f : obs -> nat) (h : list obs) : nat := fold_right plus 0%nat (map f h).
Definition avg_diff (h : list obs) : R := match h with [] => 0 | _ => (INR (total o_tlen h) - INR (total o_slen h)) / INR (length h) end.
Definition params (h : list obs) (s : nat) : R * R :=
  let L := seen_with s h in
  if Nat.leb 2 (length L) then (wmean L, sqrt (wvar L)) else (INR s + avg_diff h, (INR s + avg_diff h) / 4).
