(** Vocabulary for the phrase-based decoder: segments of the source sentence (pairs of 1-based inclusive positions), gaps, hypotheses. *)
From Coq Require Import Ascii String Arith List Bool Sorted.
Import ListNotations.
Open Scope nat_scope.

Definition seg := (nat * nat)%type.
Definition str := list ascii.
Definition in_seg (s : seg) (j : nat) : Prop := fst s <= j <= snd s.
Definition covered (ss : list seg) (j : nat) : Prop := exists s, In s ss /\ in_seg s j.
Definition seg_len (s : seg) : nat := S (snd s) - fst s.
(** no position lies in both *)
Definition disjoint (s t : seg) : Prop := forall j, ~ (in_seg s j /\ in_seg t j).
(** [s] is a maximal run of uncovered positions of 1..n *)
Definition is_gap (n : nat) (cov : nat -> Prop) (g : seg) : Prop :=
  1 <= fst g <= snd g /\ snd g <= n /\ (forall j, in_seg g j -> ~ cov j) /\
  (fst g = 1 \/ cov (fst g - 1)) /\ (snd g = n \/ cov (snd g + 1)).

(** what a hypothesis stores: the target words with the NULL word in front, the source segments in the order in which they were translated,
    and for each of them the number of target words produced up to and including it *)
Record hypdata := { ntarget : list nat; segs : list seg; cuts : list nat }.
Definition hd_null : hypdata := {| ntarget := [0]; segs := []; cuts := [] |}.
(** the hypothesis obtained by translating the segments [ps], in that order, by the given phrases *)
Fixpoint lens {A} (acc : nat) (ps : list (seg * list A)) : list nat :=
  match ps with [] => [] | p :: r => (acc + length (snd p)) :: lens (acc + length (snd p)) r end.
Definition hyp_of (ps : list (seg * list nat)) : hypdata :=
  {| ntarget := 0 :: flat_map snd ps; segs := map fst ps; cuts := lens 0 ps |}.
(** source segments translated by a partial translation: inside 1..n, no two of them overlapping *)
Definition well_segmented (n : nat) (ss : list seg) : Prop :=
  Forall (fun s => 1 <= fst s <= snd s /\ snd s <= n) ss /\ ForallOrdPairs disjoint ss.

(** user constraints: source segments with the translation they must get *)
Definition constraints := list (seg * list str).
Definition overlaps (s t : seg) : Prop := exists j, in_seg s j /\ in_seg t j.
(** what the annotation format guarantees: constrained segments lie in the sentence, do not overlap, and have a non-empty translation *)
Definition good_constraints (n : nat) (cs : constraints) : Prop :=
  well_segmented n (map fst cs) /\ Forall (fun c => snd c <> []) cs.
(** every word of a constrained segment that is translated at all is translated as part of the whole segment, as the user said *)
Definition respects (itos : nat -> str) (cs : constraints) (ps : list (seg * list nat)) : Prop :=
  forall c, In c cs -> forall p, In p ps -> overlaps (fst c) (fst p) -> fst p = fst c /\ map itos (snd p) = snd c.

(** output text of a translated segment: a phrase word the model does not know (its spelling is the unknown-word mark) is replaced by the first
    source word of the segment *)
Definition pair_text (src : list str) (itos : nat -> str) (unk : str) (p : seg * list nat) : list str :=
  map (fun w => if list_eq_dec ascii_dec (itos w) unk then nth (fst (fst p) - 1) src [] else itos w) (snd p).
(** [phr] may translate the source segment l..r: the user's translation if the segment is a constrained one; nothing if it touches a constrained
    segment; otherwise, for segments of at most [A] words, the unknown word for a single word without translations, or an entry of the phrase table *)
Definition usable (src : list str) (cs : constraints) (stoi : str -> nat) (UNK : nat) (unseen : str -> bool)
  (nbest : nat -> nat -> list (list nat)) (A : nat) (l r : nat) (phr : list nat) : Prop :=
  (exists t, In ((l, r), t) cs /\ phr = map stoi t) \/
  ((forall c, In c cs -> ~ overlaps (fst c) (l, r)) /\ r - l + 1 <= A /\
   (if (l =? r) && unseen (nth (l - 1) src []) then phr = [UNK] else In phr (nbest l r))).
