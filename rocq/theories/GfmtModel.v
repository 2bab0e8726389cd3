(** Numbers in text files: operator<< of a double with the default format (%g, six significant digits), and atof.
    Doubles are their exact rational values (no infinities, NaN or negative zero); atof's rounding to the nearest double is left out. *)
From Coq Require Import Ascii String Arith ZArith NArith QArith Qpower List Bool.
From Verif Require Import TextSpec TextModel VocabModel PmModel.
Import ListNotations.
Open Scope Z_scope.
(** number of decimal digits *)
Fixpoint nd_loop (fuel : nat) (z : Z) : Z := match fuel with O => 1 | S f => if z <? 10 then 1 else 1 + nd_loop f (z / 10) end.
Definition ndigits (z : Z) : Z := nd_loop (S (Z.to_nat (Z.log2 z))) z.
(** the X with 10^X <= x < 10^(X+1), x > 0 *)
Definition decade (x : Q) : Z :=
  let X0 := ndigits (Qnum x) - ndigits (Z.pos (Qden x)) in if Qle_bool (10 ^ X0) x then X0 else X0 - 1.
(** nearest integer, ties to even *)
Definition rnd_even (y : Q) : Z :=
  let d := Qnum y / Z.pos (Qden y) in
  let r := 2 * (Qnum y mod Z.pos (Qden y)) in
  match r ?= Z.pos (Qden y) with Lt => d | Gt => d + 1 | Eq => if Z.even d then d else d + 1 end.
(** six significant digits of x > 0: (m, X) stands for m*10^(X-5) *)
Definition round6 (x : Q) : Z * Z :=
  let X := decade x in
  let m := rnd_even (x * 10 ^ (5 - X)) in
  if m =? 1000000 then (100000, X + 1) else (m, X).
Definition sixdigits (m : Z) : str := map (fun k => digit (Z.to_nat (m / 10 ^ k mod 10))) [5; 4; 3; 2; 1; 0].
Fixpoint drop0 (l : str) : str := match l with [] => [] | c :: r => if Ascii.eqb c "0"%char then drop0 r else l end.
(** %g drops trailing zeros of the fraction *)
Definition strip0 (l : str) : str := rev (drop0 (rev l)).
Definition frac (f : str) : str := match f with [] => [] | _ => "."%char :: f end.
Definition exp_digits (n : nat) : str := match dec n with [c] => ["0"%char; c] | e => e end.
(** C99 7.19.6.1: %g with precision 6 *)
Definition render (m X : Z) : str :=
  let D := sixdigits m in
  if (-4 <=? X) && (X <? 6) then
    if 0 <=? X then firstn (Z.to_nat (X + 1)) D ++ frac (strip0 (skipn (Z.to_nat (X + 1)) D))
    else T "0." ++ repeat "0"%char (Z.to_nat (- X - 1)) ++ strip0 D
  else firstn 1 D ++ frac (strip0 (skipn 1 D)) ++ "e"%char :: (if X <? 0 then "-"%char else "+"%char) :: exp_digits (Z.to_nat (Z.abs X)).
Definition fmt_g (x : Q) : str :=
  if Qnum x =? 0 then T "0"
  else (if Qnum x <? 0 then ["-"%char] else []) ++ (let (m, X) := round6 (Qabs.Qabs x) in render m X).

(** atof: sign, digits, fraction, exponent; what follows is ignored.  [None]: no digits (outside the model) *)
Definition sign_of (s : str) : bool * str :=
  match s with c :: r => if Ascii.eqb c "-"%char then (true, r) else if Ascii.eqb c "+"%char then (false, r) else (false, s) | [] => (false, []) end.
Definition exponent_of (s : str) : Z :=
  match s with
  | c :: r => if Ascii.eqb c "e"%char || Ascii.eqb c "E"%char then
                let (neg, b) := sign_of r in let (ds, _) := split_digits b in let v := Z.of_N (digits ds 0) in if neg then - v else v
              else 0
  | [] => 0
  end.
Definition frac_of (r : str) : str * str :=
  match r with c :: b => if Ascii.eqb c "."%char then split_digits b else ([], r) | [] => ([], []) end.
Definition atofq (s : str) : option Q :=
  let (neg, body) := sign_of s in
  let (ip, r1) := split_digits body in
  let (fp, r2) := frac_of r1 in
  match ip ++ fp with
  | [] => None
  | _ => let v := (inject_Z (Z.of_N (digits (ip ++ fp) 0)) * 10 ^ (exponent_of r2 - Z.of_nat (length fp)))%Q in
         Some (Qred (if neg then - v else v)%Q)
  end.
