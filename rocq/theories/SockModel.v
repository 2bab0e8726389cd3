(** Socket message functions: /repo/src/nlp_common/BasicSocketUtils.cc.  The connection is the sequence of bytes written and
    not yet read.  Bytes are N < 256, ints are Z in [-2^31,2^31).  Not modelled: recv returning -1 (exception), recvFloat,
    connection set-up. *)
From Coq Require Import NArith ZArith List Bool.
From Verif Require Import SockSpec.
Import ListNotations.

(** htonl then the 4 bytes of the int in memory order: most significant byte first *)
Definition be32 (i : Z) : list N :=
  let u := Z.to_N (i mod 2^32) in [(u / 16777216) mod 256; (u / 65536) mod 256; (u / 256) mod 256; u mod 256]%N.
(** ntohl and reinterpretation as signed int *)
Definition int_of (a b c d : N) : Z :=
  let u := Z.of_N (16777216 * a + 65536 * b + 256 * c + d)%N in if (u <? 2^31)%Z then u else (u - 2^32)%Z.
(** strlen: the bytes before the first zero *)
Fixpoint cbytes (s : list N) : list N := match s with [] => [] | b :: r => if (b =? 0)%N then [] else b :: cbytes r end.

(** a system call write(fd,bs,n) that returns k: -1 failure, otherwise k bytes were accepted *)
Definition sys_write (bs : list N) (k : Z) : list N := if (k <? 0)%Z then [] else firstn (Z.to_nat k) bs.
(** BasicSocketUtils.cc:127-138; None: exception; otherwise bytes sent and return value *)
Definition writeInt (i : Z) (k : Z) : option (list N * Z) :=
  if (k =? -1)%Z then None else Some (sys_write (be32 i) k, k).
(** BasicSocketUtils.cc:140-156: the test is (ret+=write(..))==-1, on the accumulated value *)
Definition writeStr (s : list N) (k1 k2 : Z) : option (list N * Z) :=
  let s := cbytes s in
  match writeInt (Z.of_nat (length s)) k1 with
  | None => None
  | Some (b1, ret) =>
    if (0 <? length s)%nat
    then let ret := (ret + k2)%Z in if (ret =? -1)%Z then None else Some (b1 ++ sys_write s k2, ret)
    else Some (b1, ret)
  end.
(** what a complete write of a message puts on the wire *)
Definition send (m : msg) : option (list N) :=
  match m with
  | MInt z => option_map fst (writeInt z 4)
  | MStr s => option_map fst (writeStr s 4 (Z.of_nat (length (cbytes s))))
  end.

(** recv(s,buf,n,0) with at most [d] bytes having arrived (0 bytes: connection closed) *)
Definition sys_recv (n d : nat) (wire : list N) : list N * list N :=
  (firstn (Nat.min n d) wire, skipn (Nat.min n d) wire).
(** BasicSocketUtils.cc:89-105; fewer than 4 bytes leave part of receivedInt uninitialised: None *)
Definition recvInt (d : nat) (wire : list N) : option (Z * list N) :=
  match sys_recv 4 d wire with
  | ([a; b; c; e], rest) => Some (int_of a b c e, rest)
  | _ => None
  end.
(** BasicSocketUtils.cc:65-86 with [d1] bytes available to the first recv and [d2] to the second; a negative length makes
    str[numbytes] an access outside the buffer: None.  Result: returned byte count, string, remaining bytes. *)
Definition recvStlStr (d1 d2 : nat) (wire : list N) : option (nat * list N * list N) :=
  match recvInt d1 wire with
  | None => None
  | Some (n, rest) =>
    if (n <? 0)%Z then None else
    if (n =? 0)%Z then Some (0, [], rest) else
    let (got, rest') := sys_recv (Z.to_nat n) d2 rest in
    Some (length got, cbytes got, rest')
  end.
(** reading a message of the kind of [m] when every byte of the wire is available *)
Definition receive (m : msg) (wire : list N) : option (msg * list N) :=
  match m with
  | MInt _ => option_map (fun r => (MInt (fst r), snd r)) (recvInt (length wire) wire)
  | MStr _ => option_map (fun r => (MStr (snd (fst r)), snd r)) (recvStlStr (length wire) (length wire) wire)
  end.
Fixpoint send_all (ms : list msg) : option (list N) :=
  match ms with
  | [] => Some []
  | m :: r => match send m, send_all r with Some a, Some b => Some (a ++ b) | _, _ => None end
  end.
Fixpoint receive_all (ms : list msg) (wire : list N) : option (list msg * list N) :=
  match ms with
  | [] => Some ([], wire)
  | m :: r => match receive m wire with
              | None => None
              | Some (m', w) => option_map (fun x => (m' :: fst x, snd x)) (receive_all r w)
              end
  end.
