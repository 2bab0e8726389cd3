(** Word alignment matrices: C16, C17, C18, C19. *)
From Coq Require Import Arith NArith List Bool Lia.
From Verif Require Import AligSpec AligModel AligProofs.
Import ListNotations.

(** C16 *)
Theorem C16_set_operations : forall m w, same_dims m w -> forall i j,
  (link (w_and m w) i j <-> link m i j /\ link w i j) /\
  (link (w_or m w) i j <-> link m i j \/ link w i j) /\
  (link (w_xor m w) i j <-> (link m i j /\ ~ link w i j) \/ (~ link m i j /\ link w i j)).
Proof. exact set_ops_links. Qed.
Print Assumptions C16_set_operations.

Theorem C16_different_dimensions_unchanged : forall m w, ~ same_dims m w ->
  w_and m w = m /\ w_or m w = m /\ w_xor m w = m /\ w_minus m w = m.
Proof. exact set_ops_other_dims. Qed.
Print Assumptions C16_different_dimensions_unchanged.

(** operator-= removes nothing at all *)
Theorem C16_difference_refuted : forall m w i j, link (w_minus m w) i j <-> link m i j.
Proof. exact minus_links. Qed.
Print Assumptions C16_difference_refuted.

Theorem C16_flip_is_complement : forall m i j, inr m i j -> (link (w_flip m) i j <-> ~ link m i j).
Proof. exact flip_links. Qed.
Print Assumptions C16_flip_is_complement.

Definition ex_m := w_set (w_set (w_init 2 3) 0 0) 1 2.
Definition ex_w := w_set (w_set (w_init 2 3) 0 0) 1 1.
Example C16_nonvacuous : same_dims ex_m ex_w /\ link ex_m 1 2 /\ ~ link ex_w 1 2 /\ link (w_and ex_m ex_w) 0 0 /\
  link (w_xor ex_m ex_w) 1 1 /\ link (w_minus ex_m ex_w) 0 0.
Proof. vm_compute. repeat split; auto; try discriminate; try lia; intros [_ H]; now apply H. Qed.

(** C17 *)
Theorem C17_transpose : forall m, wI (w_transpose m) = wJ m /\ wJ (w_transpose m) = wI m /\
  forall i j, inr m i j -> wc (w_transpose m) j i = wc m i j.
Proof. exact transpose_spec. Qed.
Print Assumptions C17_transpose.
Theorem C17_transpose_links : forall m i j, link (w_transpose m) j i <-> link m i j.
Proof. exact transpose_links. Qed.
Print Assumptions C17_transpose_links.
Theorem C17_transpose_involutive : forall m, wsame (w_transpose (w_transpose m)) m.
Proof. exact transpose_twice. Qed.
Print Assumptions C17_transpose_involutive.
Example C17_nonvacuous : link (w_transpose ex_m) 2 1 /\ ~ link (w_transpose ex_m) 1 1.
Proof. vm_compute. repeat split; auto; try discriminate; try lia; intros [_ H]; now apply H. Qed.

(** C18: termination (the result is [Some]), bounds, and what characterizes the links left out *)
Theorem C18_symmetr1 : forall m w, same_dims m w -> exists r, symmetr1 m w = Some r /\ same_dims r m /\
  (forall i j, link m i j /\ link w i j -> link r i j) /\ (forall i j, link r i j -> link m i j \/ link w i j) /\
  (forall i j, (link m i j \/ link w i j) -> ~ link r i j -> (row_aligned r i \/ col_aligned r j) /\ ~ horiz r i j /\ ~ vert r i j).
Proof. exact symmetr1_ok. Qed.
Print Assumptions C18_symmetr1.
Theorem C18_symmetr2 : forall m w, same_dims m w -> exists r, symmetr2 m w = Some r /\ same_dims r m /\
  (forall i j, link m i j /\ link w i j -> link r i j) /\ (forall i j, link r i j -> link m i j \/ link w i j) /\
  (forall i j, (link m i j \/ link w i j) -> ~ link r i j -> (row_aligned r i \/ col_aligned r j) /\
     ((~ horiz r i j /\ ~ vert r i j) \/ (horiz r i j /\ vert r i j))).
Proof. exact symmetr2_ok. Qed.
Print Assumptions C18_symmetr2.
Theorem C18_growDiagFinal : forall m w, same_dims m w -> exists r, growDiagFinal m w = Some r /\ same_dims r m /\
  (forall i j, link m i j /\ link w i j -> link r i j) /\ (forall i j, link r i j -> link m i j \/ link w i j) /\
  (forall i j, (link m i j \/ link w i j) -> row_aligned r i /\ col_aligned r j).
Proof. exact growDiagFinal_ok. Qed.
Print Assumptions C18_growDiagFinal.
(** the result is a set closed under diagonal growth plus links that reach an unaligned word *)
Theorem C18_growDiagFinal_phases : forall m w r, same_dims m w -> growDiagFinal m w = Some r -> exists g, same_dims g m /\
  (forall i j, link m i j /\ link w i j -> link g i j) /\
  (forall i j i' j', link g i j -> adjacent i j i' j' -> (link m i' j' \/ link w i' j') -> row_aligned g i' /\ col_aligned g j') /\
  (forall i j, link g i j -> link r i j) /\
  (forall i j, link r i j -> link g i j \/ ~ row_aligned g i \/ ~ col_aligned g j).
Proof. exact growDiagFinal_phases. Qed.
Print Assumptions C18_growDiagFinal_phases.
Theorem C18_different_dimensions_unchanged : forall m w, ~ same_dims m w ->
  symmetr1 m w = Some m /\ symmetr2 m w = Some m /\ growDiagFinal m w = Some m.
Proof. exact symmetr_other_dims. Qed.
Print Assumptions C18_different_dimensions_unchanged.
Definition links (o : option wam) : option (list (nat * nat)) :=
  match o with None => None | Some m => Some (filter (fun c => nz (wc m (fst c) (snd c))) (cells (wI m) (wJ m))) end.
Example C18_nonvacuous : links (symmetr1 ex_m ex_w) = Some [(0, 0); (1, 1); (1, 2)] /\
  links (symmetr2 ex_m ex_w) = Some [(0, 0); (1, 1); (1, 2)] /\ links (growDiagFinal ex_m ex_w) = Some [(0, 0); (1, 1); (1, 2)].
Proof. vm_compute. auto. Qed.

(** C19 *)
Theorem C19_put_links : forall m v, length v = wJ m -> (forall a, In a v -> a <= wI m) ->
  exists r, putAligVec m v = Some r /\ same_dims r m /\ forall i j, link r i j <-> link m i j \/ nth_error v j = Some (S i).
Proof. exact putAligVec_spec. Qed.
Print Assumptions C19_put_links.
Theorem C19_put_wrong_length_unchanged : forall m v, length v <> wJ m -> putAligVec m v = Some m.
Proof. exact putAligVec_len. Qed.
Print Assumptions C19_put_wrong_length_unchanged.
(** getAligVec ignores the first row: it succeeds exactly when no column has two links below it, and gives the 0-based row *)
Theorem C19_get_characterization : forall m v, getAligVec m = Some v <->
  length v = wJ m /\ forall j, j < wJ m -> exists a, nth_error v j = Some a /\ (forall i, i <> 0 -> (link m i j <-> i = a)).
Proof. exact getAligVec_spec. Qed.
Print Assumptions C19_get_characterization.
Theorem C19_put_get_roundtrip_refuted : forall I J v, length v = J -> (forall a, In a v -> a <= I) ->
  exists r, putAligVec (w_init I J) v = Some r /\ getAligVec r = Some (map pred v).
Proof. exact put_get. Qed.
Print Assumptions C19_put_get_roundtrip_refuted.
Example C19_nonvacuous : (exists r, putAligVec (w_init 3 4) [2; 0; 3; 1] = Some r /\ getAligVec r = Some [1; 0; 2; 0]) /\
  links (putAligVec (w_init 3 4) [2; 0; 3; 1]) = Some [(0, 3); (1, 0); (2, 2)].
Proof. vm_compute. split; [eexists; split; reflexivity|reflexivity]. Qed.
