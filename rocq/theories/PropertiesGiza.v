(** C114-C117: alignment files. *)
From Coq Require Import Ascii String Arith ZArith NArith QArith List Bool Lia.
From Verif Require Import TextSpec TextModel TextProofs VocabSpec VocabModel VocabProofs AligSpec AligModel AligProofs PmModel PmText GfmtModel WgfSpec WgfModel WgfText GizaSpec GizaModel GizaText GizaProofs GizaTotal.
Import ListNotations.
Local Open Scope nat_scope.

(** C114: printed alignments are read back *)
Theorem C114_read_back : forall l, Forall wf_entry l -> exists txt l', giza_file l = Some txt /\ read_giza txt = Some l' /\ Forall2 same_entry l l'.
Proof. exact read_back. Qed.
Print Assumptions C114_read_back.
(** the lists written after each source word: the NULL word gets the positions of the target words without links, source word i+1 the position j+1 once per link *)
Theorem C114_lists : forall e, wf_entry e -> exists txt l1 l2 l3 lists, print_entry e = Some txt /\ read_lines txt = Some [l1; l2; l3] /\ length lists = length (e_ns e) /\
  (forall k w, nth_error (concat (map (fun p => fst p :: T "({" :: map dec (snd p) ++ [T "})"]) (combine (e_ns e) lists))) k = Some w -> dollar SP l3 (S k) = Some w) /\
  get_NF SP l3 = Some (length (concat (map (fun p => fst p :: T "({" :: map dec (snd p) ++ [T "})"]) (combine (e_ns e) lists)))) /\
  (forall j, count_occ Nat.eq_dec (nth 0 lists []) (S j) = 1 <-> j < wJ (e_al e) /\ ~ col_aligned (e_al e) j) /\
  (forall i j, inr (e_al e) i j -> count_occ Nat.eq_dec (nth (S i) lists []) (S j) = N.to_nat (wc (e_al e) i j)).
Proof.
  intros e W. pose proof W as (NE & PN & NO & PT & DI & DJ & SM & B). exists (file_of (entry_lines e)). do 3 eexists. exists (map snd (items_of (e_ns e) (e_al e))).
  split; [now apply print_ok, wf_len|]. split; [apply read_lines_ok; now apply entry_good|].
  assert (LI : length (items_of (e_ns e) (e_al e)) = length (e_ns e)) by (rewrite <- (items_words (e_ns e) (e_al e)) at 2; now rewrite map_length).
  split; [now rewrite map_length|].
  assert (CI : combine (e_ns e) (map snd (items_of (e_ns e) (e_al e))) = items_of (e_ns e) (e_al e)).
  { rewrite <- (items_words (e_ns e) (e_al e)) at 1. clear. induction (items_of (e_ns e) (e_al e)) as [|[a b] l IH]; [reflexivity|]. cbn [map combine fst snd]. now rewrite IH. }
  rewrite CI. change (fun p => fst p :: T "({" :: map dec (snd p) ++ [T "})"]) with item_fields. pose proof (line_fields _ (items_clean (e_ns e) (e_al e) PN)) as LF.
  split; [intros k w E; rewrite dol, LF; f_equal; now apply nth_error_nth|]. split; [now rewrite nfw, LF|]. split.
  - intros j. destruct (e_ns e) as [|n s]; [contradiction|]. cbn [items_of map nth snd]. unfold null_links.
    assert (ND : NoDup (map S (filter (fun j => negb (jAligned (e_al e) j)) (seq 0 (wJ (e_al e)))))). { apply FinFun.Injective_map_NoDup; [intros a b X; now injection X|]. apply NoDup_filter, seq_NoDup. }
    split.
    + intros H. assert (X : In (S j) (map S (filter (fun j => negb (jAligned (e_al e) j)) (seq 0 (wJ (e_al e)))))) by (apply (count_occ_In Nat.eq_dec); rewrite H; lia). apply in_map_iff in X as (j' & X & Y). injection X as ->. apply filter_In in Y as [Y1 Y2]. apply in_seq in Y1. split; [lia|].
      intros C. apply jAligned_true in C; [|lia]. rewrite C in Y2. discriminate.
    + intros [H C]. rewrite (NoDup_count_occ' Nat.eq_dec) in ND. apply ND. apply in_map, filter_In. split; [apply in_seq; lia|]. destruct (jAligned (e_al e) j) eqn:E; [|reflexivity]. exfalso. apply C, jAligned_true; assumption.
  - intros i j [Ri Rj]. rewrite (nth_indep _ [] (snd ([] : str, [] : list nat))) by (rewrite map_length; lia). rewrite map_nth, items_nth by lia. now apply count_word_links.
Qed.
Print Assumptions C114_lists.
(** a source word written "({" spoils the entry: its row is read as two *)
Theorem C114_brace_word_refuted : exists e txt l', Forall plain (e_ns e) /\ Forall plain (e_t e) /\ e_ns e <> [] /\ S (wI (e_al e)) = length (e_ns e) /\ wJ (e_al e) = length (e_t e) /\
  print_entry e = Some txt /\ read_giza txt = Some l' /\ ~ Forall2 same_entry [e] l'.
Proof.
  exists (mkent [T "NULL"; T "({"] [T "a"] (mkwam 1 1 (fun _ _ => 1%N)) 1). do 2 eexists.
  split; [repeat constructor; try discriminate; cbn; intuition discriminate|]. split; [repeat constructor; try discriminate; cbn; intuition discriminate|]. split; [discriminate|]. split; [reflexivity|]. split; [reflexivity|].
  split; [vm_compute; reflexivity|]. split; [vm_compute; reflexivity|]. intros F. inversion F as [|? ? ? ? (_ & _ & [[X _] _] & _) _]. vm_compute in X. discriminate X.
Qed.

(** C115: join, intersect, sum, symmetr1, symmetr2 and growDiagFinal on two files *)
Theorem C115_operations : forall o tr la lb, Forall wf_entry la -> Forall wf_entry lb -> exists fa fb fc lc,
  giza_file la = Some fa /\ giza_file lb = Some fb /\ giza_file lc = Some fc /\ align_op o tr fa fb = Some fc /\ Forall wf_entry lc /\ zipped (combined o tr) la lb lc.
Proof. exact op_files. Qed.
Print Assumptions C115_operations.
(** so what is read from the output is the combination of what is in the inputs *)
Theorem C115_output_readable : forall o tr la lb, Forall wf_entry la -> Forall wf_entry lb -> exists fa fb fc lc lc',
  giza_file la = Some fa /\ giza_file lb = Some fb /\ align_op o tr fa fb = Some fc /\ read_giza fc = Some lc' /\ Forall2 same_entry lc lc' /\ zipped (combined o tr) la lb lc.
Proof.
  intros o tr la lb FA FB. destruct (op_files o tr la lb FA FB) as (fa & fb & fc & lc & EA & EB & EC & EO & FC & Z). destruct (read_back lc FC) as (t & lc' & ET & ER & S2).
  rewrite EC in ET. injection ET as <-. exists fa, fb, fc, lc, lc'. auto 10.
Qed.
Print Assumptions C115_output_readable.

(** C116: any two files, however damaged *)
Theorem C116_any_files : forall o tr fx fy, numbers_ok fx -> numbers_ok fy -> exists txt, align_op o tr fx fy = Some txt.
Proof. exact op_total. Qed.
Print Assumptions C116_any_files.
Theorem C116_any_file_read : forall f, numbers_ok f -> exists l, read_giza f = Some l /\ Forall (fun e => length (e_ns e) <= S (wI (e_al e)) /\ wJ (e_al e) = length (e_t e)) l.
Proof. exact read_total. Qed.
Print Assumptions C116_any_file_read.
(** but damage is not reported: an entry linking to a position outside the target sentence is delivered, as if read correctly, without the remaining source words *)
Definition bad_file : str := file_of [T "# 1"; T "a b"; T "NULL ({ }) x ({ 3 }) y ({ 1 })"].
Theorem C116_damage_reported_refuted : exists e, read_giza bad_file = Some [e] /\ e_ns e = [T "NULL"] /\ e_t e = [T "a"; T "b"] /\ wI (e_al e) = 2.
Proof. eexists. split; [vm_compute; reflexivity|]. repeat split; reflexivity. Qed.
(** and the output of an operation on a file with one such entry cannot be read beyond it *)
Definition bad_file2 : str := file_of [T "# 1"; T "a"; T "NULL ({ 2 }) x ({ 1 })"; T "# 1"; T "b"; T "NULL ({ }) y ({ 1 })"].
Theorem C116_later_entries_refuted : exists txt a b, read_giza bad_file2 = Some [a; b] /\ align_op Join false bad_file2 bad_file2 = Some txt /\ read_giza txt = Some [].
Proof. do 3 eexists. split; [vm_compute; reflexivity|]. split; [vm_compute; reflexivity|]. vm_compute. reflexivity. Qed.

(** C117: the second format *)
Theorem C117_read_back : forall l, Forall (fun p => my_entry (fst p) (snd p)) l -> exists l', read_alignop (my_file l) = Some l' /\ Forall2 same_my l l'.
Proof. exact my_read_back. Qed.
Print Assumptions C117_read_back.

(** non-vacuity *)
Definition exm1 : wam := mkwam 2 3 (fun i j => match i, j with 0, 0 => 1%N | 1, 2 => 2%N | _, _ => 0%N end).
Definition exm2 : wam := mkwam 3 2 (fun i j => match i, j with 0, 0 => 1%N | 1, 0 => 1%N | _, _ => 0%N end).
Definition exe1 : entry := mkent [T "NULL"; T "x"; T "y"] [T "a"; T "b"; T "c"] exm1 (3 # 2).
Definition exe2 : entry := mkent [T "NULL"; T "a"; T "b"; T "c"] [T "x"; T "y"] exm2 1.
Lemma plain_list : forall l, forallb (fun w => match w with [] => false | _ => forallb (fun c => negb (Ascii.eqb c SP) && negb (Ascii.eqb c NL) && negb (Ascii.eqb c NUL)) w end) l = true -> Forall plain l.
Proof.
  intros l H. apply Forall_forall. intros w I1. rewrite forallb_forall in H. specialize (H w I1). destruct w as [|c w]; [discriminate|]. rewrite forallb_forall in H.
  repeat split; [discriminate|intros X; specialize (H _ X); discriminate..].
Qed.
Lemma exe1_wf : wf_entry exe1.
Proof.
  split; [discriminate|]. split; [apply plain_list; reflexivity|]. split; [cbn; intuition discriminate|]. split; [apply plain_list; reflexivity|]. split; [reflexivity|]. split; [reflexivity|]. split; [discriminate|]. cbn. intros [|[|i]] [|[|[|j]]] _; reflexivity.
Qed.
Lemma exe2_wf : wf_entry exe2.
Proof.
  split; [discriminate|]. split; [apply plain_list; reflexivity|]. split; [cbn; intuition discriminate|]. split; [apply plain_list; reflexivity|]. split; [reflexivity|]. split; [reflexivity|]. split; [discriminate|]. cbn. intros [|[|[|i]]] [|[|j]] _; reflexivity.
Qed.
Example C114_nonvacuous : wf_entry exe1 /\ print_entry exe1 = Some (file_of [T "# 1.5"; T "a b c"; T "NULL ({ 2 }) x ({ 1 }) y ({ 3 3 }) "]).
Proof. split; [exact exe1_wf|vm_compute; reflexivity]. Qed.
Example C115_nonvacuous : wf_entry exe1 /\ wf_entry exe2 /\ (exists fa fb, giza_file [exe1] = Some fa /\ giza_file [exe2] = Some fb /\
  align_op Join true fa fb = Some (file_of [T "# 1.5"; T "a b c"; T "NULL ({ }) x ({ 1 2 }) y ({ 3 }) "]) /\
  align_op Intersect true fa fb = Some (file_of [T "# 1.5"; T "a b c"; T "NULL ({ 2 3 }) x ({ 1 }) y ({ }) "]) /\
  align_op Join false fa fb = Some (file_of [T "# 1.5"; T "a b c"; T "NULL ({ 2 }) x ({ 1 }) y ({ 3 3 }) "])).
Proof.
  split; [exact exe1_wf|]. split; [exact exe2_wf|]. do 2 eexists. split; [vm_compute; reflexivity|]. split; [vm_compute; reflexivity|]. split; [vm_compute; reflexivity|]. split; vm_compute; reflexivity.
Qed.
Lemma line_ok_check : forall l, forallb (fun w => match atoi w with Some _ => true | None => false end) (flds l) = true ->
  (if (length (flds l) =? 2) && (if str_dec (nth 0 (flds l) []) (T "#") then true else if str_dec (nth 0 (flds l) []) (T "<ALMOHADILLA>") then true else false) then match atofq (nth 1 (flds l) []) with Some _ => true | None => false end else true) = true -> line_ok l.
Proof.
  intros l A B. split.
  - intros k w E X. rewrite dol in E. injection E as E. destruct (Nat.lt_ge_cases k (length (flds l))) as [L|L].
    + rewrite forallb_forall in A. specialize (A (nth k (flds l) []) (nth_In _ _ L)). rewrite E, X in A. discriminate.
    + rewrite nth_overflow in E by exact L. subst w. discriminate X.
  - intros h w E0 HD E N X. rewrite dol in E, E0. injection E as E. injection E0 as E0. rewrite nfw in N. injection N as N. rewrite N, E0 in B. cbn [Nat.eqb andb] in B.
    assert (Y : (if str_dec h (T "#") then true else if str_dec h (T "<ALMOHADILLA>") then true else false) = true) by (destruct HD as [-> | ->]; reflexivity). rewrite Y, E, X in B. discriminate.
Qed.
Example C116_nonvacuous : numbers_ok bad_file.
Proof.
  intros ls E. assert (X : read_lines bad_file = Some [T "# 1"; T "a b"; T "NULL ({ }) x ({ 3 }) y ({ 1 })"]) by (vm_compute; reflexivity). rewrite X in E. injection E as <-.
  apply Forall_cons; [|apply Forall_cons; [|apply Forall_cons; [|apply Forall_nil]]]; apply line_ok_check; vm_compute; reflexivity.
Qed.
Example C117_nonvacuous : my_entry exe1 7 /\ my_file [(exe1, 7)] = file_of [T "# 7"; T "a b c"; T "NULL x y"; T "0 0 2 "; T "1 0 0 "].
Proof.
  split; [|vm_compute; reflexivity]. destruct exe1_wf as (A & B & _ & C & D & E & _). repeat split; auto. cbn. intros [|[|i]] [|[|[|j]]] _; vm_compute; discriminate.
Qed.
