(** Numbers in the log domain as thot uses them: a float/double that holds ln x.  Rounding is not modelled (real numbers).
    LZ is "log of zero": it stands both for the floating point -infinity and for the marker SMALL_LG_NUM = -99999
    (/repo/src/nlp_common/MathDefs.h:40): in double precision exp(-99999) is exactly 0 and lns_sumlog(-99999,x) is exactly x for every
    x > -99890, so the two are indistinguishable for the values that occur here.  NaN: the result of an invalid operation. *)
From Coq Require Import Reals List Lra.
From Verif Require Import MathModel.
Open Scope R_scope.
Inductive lg := NaN | LZ | Fin (r : R).
Definition SMALL_LG_NUM : R := - 99999.
(** the C function log applied to a probability / count *)
Definition lgln (p : R) : lg := if Rlt_dec 0 p then Fin (ln p) else if Rlt_dec p 0 then NaN else LZ.
(** the C function exp *)
Definition lgexp (a : lg) : R := match a with Fin r => exp r | _ => 0 end.
(** a+b, a-b *)
Definition lgadd (a b : lg) : lg := match a, b with Fin x, Fin y => Fin (x + y) | LZ, Fin _ | Fin _, LZ | LZ, LZ => LZ | _, _ => NaN end.
Definition lgsub (a b : lg) : lg := match a, b with Fin x, Fin y => Fin (x - y) | LZ, Fin _ => LZ | _, _ => NaN end.
(** comparison a<=b, a<b of doubles (false as soon as a NaN is involved) *)
Definition lgleb (a b : lg) : bool := match a, b with LZ, Fin _ => true | LZ, LZ => true | Fin x, Fin y => if Rle_dec x y then true else false | _, _ => false end.
Definition lgltb (a b : lg) : bool := match a, b with LZ, Fin _ => true | Fin x, Fin y => if Rlt_dec x y then true else false | _, _ => false end.
(** a!=b *)
Definition lgneqb (a b : lg) : bool := match a, b with LZ, LZ => false | Fin x, Fin y => if Req_EM_T x y then false else true | _, _ => true end.
(** /repo/src/nlp_common/MathFuncs.cc:316-326 lns_sumlog, :347-357 lns_sumlog_float.  Two log-zeros: (-inf)-(-inf) is NaN *)
Definition lgsumlog (a b : lg) : lg := match a, b with Fin x, Fin y => Fin (lns_sumlog x y) | Fin x, LZ => Fin x | LZ, Fin y => Fin y | _, _ => NaN end.
(** :335-338 lns_sublog, :366-369 lns_sublog_float; log of zero gives -infinity, log of a negative number NaN *)
Definition lgsublog (a b : lg) : lg :=
  match a, b with
  | Fin x, Fin y => if Rlt_dec y x then Fin (lns_sublog x y) else if Req_EM_T x y then LZ else NaN
  | Fin x, LZ => Fin x
  | LZ, LZ => LZ
  | _, _ => NaN
  end.
