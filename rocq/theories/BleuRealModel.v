(** The score computed from the counts, bleu.cc:153-174, over the real numbers (float and double rounding is not modelled). *)
From Coq Require Import List Arith Reals.
From Verif Require Import BleuModel.
Import ListNotations.
Open Scope R_scope.
(** bleu.cc:234-238 *)
Definition my_log (x : R) : R := if Req_EM_T x 0 then -999999999 else ln x.
(** bleu.cc:153-158; the code divides by zero (giving exp(-inf) = 0) if the system output has no words but the reference has *)
Definition brevity (c : counts) : R := if (sysWords c <? refWords c)%nat then exp (1 - INR (refWords c) / INR (sysWords c)) else 1.
(** bleu.cc:164-165 *)
Definition precision (pt : nat * nat) : R := if (snd pt =? 0)%nat then 0 else INR (fst pt) / INR (snd pt).
(** bleu.cc:162-174 *)
Definition log_mean (l : list (nat * nat)) : R := fold_left (fun b pt => b + 1 / INR MAX_N * my_log (precision pt)) l 0.
Definition bleu (c : counts) : R := brevity c * exp (log_mean (acc c)).
