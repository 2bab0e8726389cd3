(** C118-C120: containers of word alignments. *)
From Coq Require Import Ascii String Arith ZArith NArith QArith List Bool Lia Sorted.
From Verif Require Import TextSpec TextModel TextProofs VocabSpec VocabModel VocabProofs AligSpec AligModel AligProofs PmModel PmText GfmtModel WgfSpec WgfModel WgfText GizaSpec GizaModel GizaText GizaProofs GizaTotal PropertiesGiza ContSpec ContModel ContProofs ContMain.
Import ListNotations.
Local Open Scope nat_scope.
Lemma wsame_trans : forall a b c, wsame a b -> wsame b c -> wsame a c.
Proof. intros a b c [[A1 A2] A3] [[B1 B2] B3]. split; [split; congruence|]. intros i j R. rewrite A3 by exact R. apply B3. unfold inr in *. now rewrite <- A1, <- A2. Qed.
(** C118: a container filled from a file of alignments and printed compactly: every sentence pair of the file exactly once, with the number of its entries and the alignment of the first *)
Theorem C118_compact : forall tr f es, read_giza f = Some es -> Forall (storable tr) es -> small (length es) ->
  exists es' c txt lc, Forall2 (seen tr) es es' /\ extract tr f = Some c /\ printCompact c = Some txt /\ read_giza txt = Some lc /\
    NoDup (map pair_of lc) /\ (forall p, In p (map pair_of lc) <-> In p (map pair_of es')) /\
    forall x, In x lc -> (e_reps x == inject_Z (Z.of_nat (occurrences (pair_of x) es')))%Q /\
      exists l1 e l2, es' = l1 ++ e :: l2 /\ pair_of e = pair_of x /\ ~ In (pair_of x) (map pair_of l1) /\ wsame (e_al e) (e_al x).
Proof.
  intros tr f es R F _. destruct (turns_ok tr f es R F) as (W & B & SN). unfold extract. rewrite R. destruct (slook_extract (map (turn tr) es) _ eq_refl) as [I0 L].
  destruct (compact_ok (map (turn tr) es) [] _ I0 W B (Forall_nil _)) as (txt & lc & P & RD & ND & EQ & H); [intros p; rewrite L; now destruct (find _ _)|].
  exists (map (turn tr) es). eexists. exists txt, lc. split; [exact SN|]. split; [reflexivity|]. split; [exact P|]. split; [exact RD|]. split; [exact ND|]. split; [exact EQ|]. intros x I1. destruct (H x I1) as (H1 & r & (l1 & e & l2 & E1 & E2 & E3 & E4) & H2). split; [exact H1|]. exists l1, e, l2. repeat (split; [assumption|]).
  inversion E4 as [? ? WS|]; subst. eapply wsame_trans; eassumption.
Qed.
Print Assumptions C118_compact.
(** files of operands: their entries, with source and target exchanged where the call says so *)
Definition operand_files (qs : list ccall) (gs gs' : list (list entry)) : Prop :=
  Forall2 (fun (q : ccall) g => read_giza (snd q) = Some g /\ Forall (storable (snd (fst q))) g) qs gs /\
  Forall2 (fun (q : ccall) p => Forall2 (seen (snd (fst q))) (fst p) (snd p)) qs (combine gs gs') /\ length gs = length gs'.
Lemma files_ok : forall qs gs, Forall2 (fun (q : ccall) g => read_giza (snd q) = Some g /\ Forall (storable (snd (fst q))) g) qs gs ->
  let gs' := map (fun x : ccall * list entry => map (turn (snd (fst (fst x)))) (snd x)) (combine qs gs) in
  files_of qs gs /\ operand_files qs gs gs' /\ Forall (fun q : aop * list entry => Forall wf_entry (snd q)) (combine (map (fun q : ccall => fst (fst q)) qs) gs').
Proof.
  intros qs gs F. unfold files_of, operand_files. cbn zeta. induction F as [|q g qs gs [R S1] F IH]; [repeat split; constructor|]. destruct IH as (P1 & (_ & P2 & PL) & P3). destruct (turns_ok _ _ _ R S1) as (W & _ & SN).
  split; [constructor; [exact R|exact P1]|]. cbn [combine map fst snd]. split; [|constructor; assumption]. split; [constructor; [now split|exact F]|]. split; [constructor; assumption|cbn [length]; now rewrite PL].
Qed.
Definition ops_spec (qs : list ccall) (gs' : list (list entry)) : list (aop * list entry) := combine (map (fun q : ccall => fst (fst q)) qs) gs'.
(** C119: any sequence of join, intersection, sum and symmetrization calls: pairs and counts stay, every alignment is combined with all the entries of its pair, one file after the other *)
Theorem C119_operations : forall tr f es qs gs, read_giza f = Some es -> Forall (storable tr) es -> small (length es) ->
  Forall2 (fun (q : ccall) g => read_giza (snd q) = Some g /\ Forall (storable (snd (fst q))) g) qs gs ->
  exists es' gs' c c' txt lc, Forall2 (seen tr) es es' /\ operand_files qs gs gs' /\ extract tr f = Some c /\ cont_ops qs (Some c) = Some c' /\ printCompact c' = Some txt /\ read_giza txt = Some lc /\
    NoDup (map pair_of lc) /\ (forall p, In p (map pair_of lc) <-> In p (map pair_of es')) /\
    forall x, In x lc -> (e_reps x == inject_Z (Z.of_nat (occurrences (pair_of x) es')))%Q /\ exists r, kept es' (ops_spec qs gs') (pair_of x) r /\ wsame r (e_al x).
Proof.
  intros tr f es qs gs R F _ FQ. destruct (turns_ok tr f es R F) as (W & B & SN). unfold extract. rewrite R. destruct (slook_extract (map (turn tr) es) _ eq_refl) as [I0 L]. destruct (files_ok qs gs FQ) as (P1 & P2 & P3).
  destruct (cont_ops_ok qs gs _ I0 P1) as (c' & E & I1 & L1).
  destruct (compact_ok (map (turn tr) es) (ops_of qs gs) c' I1 W B) as (txt & lc & P & RD & ND & EQ & H).
  - rewrite ops_of_combine by apply (F2_len _ _ _ _ _ FQ). exact P3.
  - intros p. now rewrite L1, L.
  - exists (map (turn tr) es). eexists. eexists. exists c', txt, lc. split; [exact SN|]. split; [exact P2|]. split; [reflexivity|]. split; [exact E|]. split; [exact P|]. split; [exact RD|]. split; [exact ND|]. split; [exact EQ|]. intros x I2. destruct (H x I2) as (H1 & H2). split; [exact H1|]. rewrite ops_of_combine in H2 by apply (F2_len _ _ _ _ _ FQ). exact H2.
Qed.
Print Assumptions C119_operations.
(** C120: printed against the file it was filled from: one entry for each entry of the file, in order, with the alignment kept for its pair *)
Theorem C120_no_compact : forall f es qs gs, read_giza f = Some es -> Forall (storable false) es -> small (length es) ->
  Forall2 (fun (q : ccall) g => read_giza (snd q) = Some g /\ Forall (storable (snd (fst q))) g) qs gs ->
  exists gs' c c' txt lc, operand_files qs gs gs' /\ extract false f = Some c /\ cont_ops qs (Some c) = Some c' /\ printNoCompact f c' = Some txt /\ read_giza txt = Some lc /\
    Forall2 (fun e x => pair_of x = pair_of e /\ e_reps x = 1%Q /\ exists r, kept es (ops_spec qs gs') (pair_of e) r /\ wsame r (e_al x)) es lc.
Proof.
  intros f es qs gs R F _ FQ. destruct (turns_ok false f es R F) as (W & B & _). unfold extract. rewrite R. destruct (slook_extract (map (turn false) es) _ eq_refl) as [I0 L]. destruct (files_ok qs gs FQ) as (P1 & P2 & P3).
  destruct (cont_ops_ok qs gs _ I0 P1) as (c' & E & I1 & L1). assert (ID : map (turn false) es = es) by (cbn [turn]; apply map_id). rewrite ID in *.
  destruct (nocompact_ok f es (ops_of qs gs) c' R I1 W B) as (txt & lc & P & RD & H).
  - rewrite ops_of_combine by apply (F2_len _ _ _ _ _ FQ). exact P3.
  - intros p. now rewrite L1, L.
  - eexists. eexists. exists c', txt, lc. split; [exact P2|]. split; [reflexivity|]. split; [exact E|]. split; [exact P|]. split; [exact RD|]. rewrite ops_of_combine in H by apply (F2_len _ _ _ _ _ FQ). exact H.
Qed.
Print Assumptions C120_no_compact.
(** Refuted: the repetition counts of the file play no part *)
Definition cfile (h : string) (rest : list string) : str := file_of (map T (h :: rest)).
Theorem C118_counts_refuted : exists f e c txt x, read_giza f = Some [e] /\ storable false e /\ e_reps e = 3%Q /\ extract false f = Some c /\ printCompact c = Some txt /\ read_giza txt = Some [x] /\ e_reps x = 1%Q.
Proof.
  exists (cfile "# 3" ["a b"; "NULL ({ }) x ({ 1 2 }) "]%string). do 4 eexists. split; [vm_compute; reflexivity|]. split.
  - split; [|discriminate]. split; [discriminate|]. split; [apply plain_list; reflexivity|]. split; [cbn; intuition discriminate|]. split; [apply plain_list; reflexivity|]. split; [reflexivity|]. split; [reflexivity|]. split; [discriminate|]. cbn [e_al]. intros [|[|i]] [|[|j]] _; vm_compute; reflexivity.
  - split; [reflexivity|]. split; [vm_compute; reflexivity|]. split; [vm_compute; reflexivity|]. split; [vm_compute; reflexivity|]. reflexivity.
Qed.
Print Assumptions C118_counts_refuted.
(** Refuted: filled with source and target exchanged, the container does not match the file it is printed against *)
Theorem C120_transposed_refuted : exists f e c, read_giza f = Some [e] /\ storable true e /\ extract true f = Some c /\ printNoCompact f c = Some [].
Proof.
  exists (cfile "# 1" ["a b"; "NULL ({ }) x ({ 1 2 }) "]%string). do 2 eexists. split; [vm_compute; reflexivity|]. split.
  - split; [|intros _; split; [cbn; intuition discriminate|discriminate]]. split; [discriminate|]. split; [apply plain_list; reflexivity|]. split; [cbn; intuition discriminate|]. split; [apply plain_list; reflexivity|]. split; [reflexivity|]. split; [reflexivity|]. split; [discriminate|]. cbn [e_al]. intros [|[|i]] [|[|j]] _; vm_compute; reflexivity.
  - split; vm_compute; reflexivity.
Qed.
Print Assumptions C120_transposed_refuted.
(** non-vacuity *)
Definition cf1 : str := cfile "# 1" ["a b"; "NULL ({ }) x ({ 1 2 }) "; "# 1"; "c"; "NULL ({ 1 }) y ({ }) "; "# 1"; "a b"; "NULL ({ 1 }) x ({ 2 }) "]%string.
Definition cf2 : str := cfile "# 1" ["x"; "NULL ({ }) a ({ }) b ({ 1 }) "]%string.
Ltac wf_tac := split; [discriminate|]; split; [apply plain_list; reflexivity|]; split; [cbn; intuition discriminate|]; split; [apply plain_list; reflexivity|]; split; [reflexivity|]; split; [reflexivity|]; split; [discriminate|]; cbn [e_al]; intros [|[|[|i]]] [|[|j]] _; vm_compute; reflexivity.
Example C118_nonvacuous : exists es, read_giza cf1 = Some es /\ length es = 3 /\ Forall (storable false) es /\
  exists c, extract false cf1 = Some c /\ printCompact c = Some (cfile "# 1" ["c"; "NULL ({ 1 }) y ({ }) "; "# 2"; "a b"; "NULL ({ }) x ({ 1 2 }) "]%string).
Proof.
  eexists. split; [vm_compute; reflexivity|]. split; [reflexivity|]. split; [repeat (apply Forall_cons || apply Forall_nil); (split; [wf_tac|discriminate])|]. eexists. split; [vm_compute; reflexivity|]. vm_compute; reflexivity.
Qed.
Example C119_nonvacuous : exists g c c', read_giza cf2 = Some g /\ Forall (storable true) g /\ extract false cf1 = Some c /\ cont_ops [(Intersect, true, cf2)] (Some c) = Some c' /\
  printCompact c' = Some (cfile "# 1" ["c"; "NULL ({ 1 }) y ({ }) "; "# 2"; "a b"; "NULL ({ 1 }) x ({ 2 }) "]%string).
Proof.
  do 3 eexists. split; [vm_compute; reflexivity|]. split; [repeat (apply Forall_cons || apply Forall_nil); (split; [wf_tac|intros _; split; [cbn; intuition discriminate|discriminate]])|]. split; [vm_compute; reflexivity|]. split; vm_compute; reflexivity.
Qed.
Example C120_nonvacuous : exists c, extract false cf1 = Some c /\
  printNoCompact cf1 c = Some (cfile "# Sentence 1" ["a b"; "NULL ({ }) x ({ 1 2 }) "; "# Sentence 2"; "c"; "NULL ({ 1 }) y ({ }) "; "# Sentence 3"; "a b"; "NULL ({ }) x ({ 1 2 }) "]%string).
Proof. eexists. split; vm_compute; reflexivity. Qed.
