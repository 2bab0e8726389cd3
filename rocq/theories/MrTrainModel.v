(** /repo/utils/sw_models/thot_gen_batch_sw_model_mr.sh:85-330,401-441 with binary files, for IBM model 2: the corpus is split in chunks Ds; in every iteration each chunk
    is trained separately (thot_gen_sw_model -eb -n 1) from the current model, the counts are printed and sorted, and the counts of all chunks are merged.  From
    the second iteration on a chunk starts from the merged lexical table filtered with the keys of the counts of its first iteration (generate_filter_info :335-352,
    filter_lex_table_bin :401-407) and the merged alignment table (:437-440).  Vocabularies (one for all chunks), the length model and the final pruning are left out. *)
From Coq Require Import Reals NArith Arith List.
From Verif Require Import LogNum Ibm1Spec Ibm2Spec Ibm2Model MrModel.
Import ListNotations.
Notation lexrec := (rec N N).
Notation aligrec := (rec apos nat).
Definition batch_round (D : list pair) (E : em2) : em2 := efficientBatchTrainingForRange2 D (seq 0 (length D)) E.
(** proc_chunk :208-245, sort_counts_bin :192-206 *)
Definition chunk_counts (D : list pair) (E : em2) (lex : list lexrec) (alig : list aligrec) : Prop :=
  exists l a, print_table N.eq_dec (ltb (batch_round D E)) l /\ sort_tool lt_word lt_word l lex /\
              print_table aposdec (atb (batch_round D E)) a /\ sort_tool lt_asource lt_pos a alig.
(** merge_lex_counts_bin :285-292, merge_alig_counts_bin :319-333 *)
Definition merge_counts (files : list (list lexrec * list aligrec)) (lex : list lexrec) (alig : list aligrec) : Prop :=
  merge_tool lt_word lt_word N.eq_dec N.eq_dec (map fst files) (Some lex) /\ merge_tool lt_asource lt_pos aposdec Nat.eq_dec (map snd files) (Some alig).
Definition load_model (lex : list lexrec) (alig : list aligrec) : em2 :=
  {| ltb := load_table N.eq_dec N.eq_dec lex; atb := load_table aposdec Nat.eq_dec alig; keep2 := true; store2 := [] |}.
(** mr Ds E0 n infos lex alig: after n iterations from the initial model E0, lex and alig are the merged counts; infos: filtering information of the chunks *)
Inductive mr (Ds : list (list pair)) (E0 : em2) : nat -> list (list (N * N)) -> list lexrec -> list aligrec -> Prop :=
| mr_first : forall files lex alig, Forall2 (fun D fa => chunk_counts D E0 (fst fa) (snd fa)) Ds files -> merge_counts files lex alig ->
    mr Ds E0 1 (map (fun fa => gen_filter_info (fst fa)) files) lex alig
| mr_next : forall n infos lex alig files lex' alig', mr Ds E0 n infos lex alig ->
    Forall2 (fun di fa => chunk_counts (fst di) (load_model (filter_tool N.eq_dec N.eq_dec lex (snd di)) alig) (fst fa) (snd fa)) (combine Ds infos) files ->
    merge_counts files lex' alig' -> mr Ds E0 (S n) infos lex' alig'.
