(** src/nlp_common/Bitset.h (the hand-written class, lines 64-520): fixed-size bit sets in 32-bit words.
    [words] is the list of its NUM_WORDS(N) words, least significant first.  Access outside the array is [None]. *)
From Coq Require Import Arith NArith List Bool.
Import ListNotations.
Open Scope N_scope.

Definition W : N := 32.                       (* NUM_BITS_INT, Bitset.h:78 *)
Definition UINT_MOD : N := 2 ^ 32.

(** NUM_WORDS(n): Bitset.h:81 *)
Definition NUM_WORDS (n : N) : N := if n <? 1 then 1 else (n - 1 + W) / W.

Fixpoint upd {A} (i : nat) (x : A) (l : list A) : list A :=
  match l, i with
  | [], _ => []
  | _ :: l', O => x :: l'
  | y :: l', S i' => y :: upd i' x l'
  end.

(** word index and bit offset of position n: [i=NUM_WORDS(n+1)-1; n=n-(i*NUM_BITS_INT)], Bitset.h:239-240,257-258,272 *)
Definition widx (n : N) : N := NUM_WORDS (n + 1) - 1.
Definition woff (n : N) : N := n - widx n * W.

(** reset(): Bitset.h:210-217 *)
Definition bs_reset_all (nw : nat) : list N := repeat 0 nw.
(** set(): Bitset.h:221-231 *)
Definition bs_set_all (nw : nat) : list N := repeat (UINT_MOD - 1) nw.

(** reset(n): Bitset.h:235-246 *)
Definition bs_reset (n : N) (b : list N) : option (list N) :=
  let i := N.to_nat (widx n) in
  match nth_error b i with
  | None => None
  | Some w => Some (upd i (N.land w (UINT_MOD - 1 - N.shiftl 1 (woff n) mod UINT_MOD)) b)
  end.

(** set(n,val): Bitset.h:250-264.  [1<<31] on int is taken as 2^31 (two's complement). *)
Definition bs_set (n : N) (val : bool) (b : list N) : option (list N) :=
  if val then
    let i := N.to_nat (widx n) in
    match nth_error b i with
    | None => None
    | Some w => Some (upd i (N.lor w (N.shiftl 1 (woff n) mod UINT_MOD)) b)
    end
  else bs_reset n b.

(** test(n): Bitset.h:268-275 *)
Definition bs_test (n : N) (b : list N) : option bool :=
  match nth_error b (N.to_nat (widx n)) with
  | None => None
  | Some w => Some (N.testbit (N.shiftr w (woff n)) 0)
  end.

(** word-wise loop of operator&= (:311-320), |= (:324-334), ^= (:338-348); iteration i only touches words[i] *)
Fixpoint wordwise (f : N -> N -> N) (a b : list N) : list N :=
  match a, b with
  | x :: a', y :: b' => f x y :: wordwise f a' b'
  | _, _ => a
  end.
Definition bs_and := wordwise N.land.
Definition bs_or := wordwise N.lor.
Definition bs_xor := wordwise N.lxor.

(** operator==: :184-193 *)
Fixpoint bs_eq (a b : list N) : bool :=
  match a, b with
  | x :: a', y :: b' => if negb (x =? y) then false else bs_eq a' b'
  | _, _ => true
  end.

(** operator<: :464-474, loop over word indices i-1 with i = NUM_WORDS(N) .. 1 *)
Fixpoint bs_lt_loop (i : nat) (a b : list N) : bool :=
  match i with
  | O => false
  | S i' => if nth i' a 0 <? nth i' b 0 then true
            else if nth i' b 0 <? nth i' a 0 then false
            else bs_lt_loop i' a b
  end.
Definition bs_lt (nw : nat) (a b : list N) : bool := bs_lt_loop nw a b.
(** operator>: :478-488 *)
Fixpoint bs_gt_loop (i : nat) (a b : list N) : bool :=
  match i with
  | O => false
  | S i' => if nth i' a 0 <? nth i' b 0 then false
            else if nth i' b 0 <? nth i' a 0 then true
            else bs_gt_loop i' a b
  end.
Definition bs_gt (nw : nat) (a b : list N) : bool := bs_gt_loop nw a b.

(** most significant bit mask [n=1<<31] *)
Definition MSB : N := 2 ^ 31.

(** operator++: :396-408; the loop stops at the first word that does not overflow *)
Fixpoint bs_incr (b : list N) : list N :=
  match b with
  | [] => []
  | w :: b' =>
      let w' := (w + 1) mod UINT_MOD in
      if (N.land w MSB =? MSB) && (N.land w' MSB =? 0) then w' :: bs_incr b' else w' :: b'
  end.

(** operator+: :293-307 (in place; the carry is added to the next word of the left operand) *)
Fixpoint bs_plus (a b : list N) {struct b} : list N :=
  match b, a with
  | y :: b', x :: a' =>
      let s := (x + y) mod UINT_MOD in
      let a'' := if (N.land x MSB =? MSB) && (N.land s MSB =? 0)
                 then match a' with [] => [] | z :: r => (z + 1) mod UINT_MOD :: r end
                 else a' in
      s :: bs_plus a'' b'
  | _, _ => a
  end.

(** mask loop [for(i=0;i<pos;++i){w=w<<1; w=w|1;}], :361-364 *)
Fixpoint bs_mask (pos : nat) (w : N) : N :=
  match pos with O => w | S p => bs_mask p (N.lor (N.shiftl w 1 mod UINT_MOD) 1) end.

(** one iteration of the in-place loop of operator>>=, :366-378.  [j] whole words, [pos] bits, [m] mask.
    When pos=0 the C++ code shifts the value 0 by 32 bits (formally undefined); it is taken to give 0. *)
Definition bs_shr_step (nw j : nat) (pos m : N) (b : list N) (i : nat) : list N :=
  if (pos <? W) && (i + j <? nw)%nat then
    let lo := N.shiftr (nth (i + j)%nat b 0) pos in
    let x := if (i + j + 1 <? nw)%nat
             then N.lor lo (N.shiftl (N.land (nth (i + j + 1)%nat b 0) m) (W - pos) mod UINT_MOD)
             else lo in
    upd i x b
  else upd i 0 b.

(** operator>>=(pos): :352-382 *)
Definition bs_shr (nw : nat) (k : N) (b : list N) : list N :=
  let j := widx k in
  let pos := woff k in
  fold_left (bs_shr_step nw (N.to_nat j) pos (bs_mask (N.to_nat pos) 0)) (seq 0 nw) b.

(** count(J): :412-431 *)
Fixpoint bs_count_loop (k i : nat) (w c : N) (b : list N) : option N :=
  match k with
  | O => Some c
  | S k' => match nth_error b i with
            | None => None
            | Some x =>
                let c' := if N.land x w =? 0 then c else c + 1 in
                let w' := N.shiftl w 1 mod UINT_MOD in
                if w' =? 0 then bs_count_loop k' (S i) 1 c' b else bs_count_loop k' i w' c' b
            end
  end.
Definition bs_count (J : N) (b : list N) : option N := bs_count_loop (N.to_nat J) 0 1 0 b.

(** Bitset(unsigned int): :145-149 *)
Definition bs_of_uint (nw : nat) (ui : N) : list N := upd 0 ui (bs_reset_all nw).

(** Bitset(unsigned long), 64-bit long: :153-170; writes words[0] and words[1] ([None]: writes outside the array) *)
Definition bs_of_ulong (nw : nat) (ul : N) : option (list N) :=
  if (nw <? 2)%nat then None
  else Some (upd 1 ((N.shiftr ul W) mod UINT_MOD) (upd 0 (ul mod UINT_MOD) (bs_reset_all nw))).
(** to_ulong: :442-460 *)
Definition bs_to_ulong (b : list N) : option N :=
  match b with
  | w0 :: w1 :: _ => Some (((N.shiftl w1 W) mod 2 ^ 64 + w0) mod 2 ^ 64)
  | _ => None
  end.
(** to_uint: :435-438 *)
Definition bs_to_uint (b : list N) : option N := match b with w0 :: _ => Some w0 | [] => None end.
