(** C157-C158: scripts of alignment operations. *)
From Coq Require Import Ascii String Arith NArith QArith List Bool Lia.
From Verif Require Import TextSpec TextModel TextProofs VocabSpec VocabModel AligSpec AligModel GizaSpec GizaModel PropertiesGiza OpsModel OpsSpec OpsProofs.
Import ListNotations.
Local Open Scope nat_scope.

(** C157. A script of any number of steps, each naming a file other than the output file: the operations are carried out in order, each on what the one
    before it produced; the output file has the result of the last; no other file is touched. *)
Theorem C157_script : forall out l fs t r, Forall (fun s => clean_name (s_file s) /\ s_file s <> out) l -> carried fs l t r ->
  exists fs', parseAlignOpsFile out (script_text l) fs t = Some (Went fs' r) /\ (forall n, n <> out -> fs' n = fs n) /\ (l <> [] -> fs' out = Some r).
Proof.
  intros out l fs t r F C. unfold parseAlignOpsFile. rewrite read_script.
  - now apply run_steps.
  - eapply Forall_impl; [|exact F]. intros s [H _]. exact H.
Qed.
Print Assumptions C157_script.
(** C157: a last line without newline loses its last character and is rejected; the steps before it were carried out. *)
Theorem C157_unterminated_refuted : forall out l s fs t r, Forall (fun s => clean_name (s_file s) /\ s_file s <> out) l -> clean_name (s_file s) -> carried fs l t r ->
  exists fs', parseAlignOpsFile out (script_text l ++ step_line s) fs t = Some (Failed fs') /\ (l <> [] -> fs' out = Some r).
Proof.
  intros out l s fs t r F Cs C. assert (G : Forall (fun s => clean_name (s_file s)) l) by (eapply Forall_impl; [|exact F]; intros x [H _]; exact H).
  destruct (cut_line_eq s) as (c & Hc & E). pose proof (line_good s Cs) as Gs. rewrite E in Gs. assert (Gc : good_line (cut_line s)).
  { destruct Gs as [G1 G2]. split; intro H; [apply G1|apply G2]; apply in_or_app; now left. }
  unfold parseAlignOpsFile. rewrite E. replace (script_text l) with (file_of (map step_line l)) by (unfold script_text, file_of; now rewrite map_map).
  rewrite read_lines_unterminated; auto.
  - destruct (run_steps out l fs fs t r F (fun _ _ => eq_refl) C) as (fs' & E1 & _ & L). rewrite (exec_app _ _ _ _ _ _ _ E1). cbn [exec_lines].
    rewrite cut_line_fails by auto. exists fs'. split; [reflexivity|exact L].
  - clear -G. induction G; cbn [map]; constructor; auto using line_good.
Qed.
Print Assumptions C157_unterminated_refuted.
(** C157: a step whose file does not exist destroys the result of the steps before it: the output file is empty. *)
Theorem C157_missing_file_refuted : forall out l s l2 fs t r, Forall (fun s => clean_name (s_file s) /\ s_file s <> out) (l ++ s :: l2) -> carried fs l t r ->
  fs (s_file s) = None -> exists fs', parseAlignOpsFile out (script_text (l ++ s :: l2)) fs t = Some (Failed fs') /\ fs' out = Some [].
Proof.
  intros out l s l2 fs t r F C M. unfold parseAlignOpsFile. rewrite read_script by (eapply Forall_impl; [|exact F]; intros x [H _]; exact H).
  apply Forall_app in F. destruct F as [F1 F2]. inversion F2 as [|? ? [Cs Ns] _]; subst.
  destruct (run_steps out l fs fs t r F1 (fun _ _ => eq_refl) C) as (fs' & E1 & O & _). rewrite map_app, (exec_app _ _ _ _ _ _ _ E1). cbn [map exec_lines].
  rewrite line_fields by auto. unfold exec_op. rewrite fput_other, O, M by auto. eexists. split; [reflexivity|]. apply fput_same.
Qed.
Print Assumptions C157_missing_file_refuted.
(** C157: a first line with an unknown operation is not just skipped: the alignments given are replaced by whatever an earlier run left in the output file. *)
Theorem C157_unknown_operation_refuted : forall out name fs t old, clean_name name -> fs out = Some old ->
  parseAlignOpsFile out (T "-xor " ++ name ++ T " 0" ++ [NL]) fs t = Some (Went fs old).
Proof.
  intros out name fs t old (C1 & C2 & C3 & C4) O. unfold parseAlignOpsFile. set (ln := T "-xor" ++ SP :: name ++ SP :: T "0").
  assert (X1 : clean_name (T "-xor")) by (split; [discriminate|]; repeat split; intro H; cbn in H; intuition discriminate).
  assert (X2 : clean_name (T "0")) by (split; [discriminate|]; repeat split; intro H; cbn in H; intuition discriminate).
  destruct X1 as (X1 & X3 & X4 & X5), X2 as (X2 & X6 & X7 & X8).
  replace (T "-xor " ++ name ++ T " 0" ++ [NL]) with (file_of [ln]).
  - rewrite read_lines_ok.
    + cbn [exec_lines]. unfold exec_line. rewrite get_NF_words, !dollar_words. unfold ln. rewrite !three_words by auto. cbn [length Nat.eqb nth]. cbn. now rewrite O.
    + constructor; [|constructor]. unfold ln. split; intro H; apply in_app_or in H; destruct H as [H|[H|H]]; auto; try discriminate; apply in_app_or in H; destruct H as [H|[H|H]]; auto; discriminate.
  - unfold ln, file_of. cbn. rewrite <- !app_assoc. reflexivity.
Qed.
Print Assumptions C157_unknown_operation_refuted.

(** C158. On well formed files of alignments no script fails, however long, and what it writes has, entry by entry, the combinations asked for. *)
Theorem C158_entries : forall out ents l fs la t, Forall wf_entry la -> giza_file la = Some t ->
  Forall (fun s => clean_name (s_file s) /\ s_file s <> out) l -> Forall (fun s => Forall wf_entry (ents (s_file s)) /\ fs (s_file s) = giza_file (ents (s_file s))) l ->
  exists fs' r lr, parseAlignOpsFile out (script_text l) fs t = Some (Went fs' r) /\ (l <> [] -> fs' out = Some r) /\
    giza_file lr = Some r /\ Forall wf_entry lr /\ combined_all ents l la lr.
Proof.
  intros out ents l fs la t W G F E. destruct (entries_carried ents fs l la t W G E) as (lr & r & C & Z & W2 & G2).
  destruct (C157_script out l fs t r F C) as (fs' & P & _ & O). exists fs', r, lr. auto 10.
Qed.
Print Assumptions C158_entries.
(** the alignment exe1 joined with exe2 transposed and then intersected with exe1 again *)
Definition ex_steps : list step := [mkstep Join (T "e2") true; mkstep Intersect (T "e1") false].
Definition ex_ents (n : str) : list entry := if str_dec n (T "e2") then [exe2] else [exe1].
Example C158_nonvacuous : exists t fs, giza_file [exe1] = Some t /\ script_text ex_steps = file_of [T "-or e2 1"; T "-and e1 0"] /\ Forall wf_entry [exe1] /\
  Forall (fun s => clean_name (s_file s) /\ s_file s <> T "o.A3.final") ex_steps /\
  Forall (fun s => Forall wf_entry (ex_ents (s_file s)) /\ fs (s_file s) = giza_file (ex_ents (s_file s))) ex_steps.
Proof.
  eexists. exists (fun n => giza_file (ex_ents n)). split; [vm_compute; reflexivity|]. split; [reflexivity|]. split; [constructor; [exact exe1_wf|constructor]|]. split.
  - repeat constructor; try discriminate; cbn; intuition discriminate.
  - constructor; [|constructor; [|constructor]]; (split; [|reflexivity]); (constructor; [|constructor]); [exact exe2_wf|exact exe1_wf].
Qed.
Example C157_nonvacuous : exists t u r fy fx, giza_file [exe1] = Some t /\ giza_file [exe2] = Some fy /\ giza_file [exe1] = Some fx /\
  align_op Join true t fy = Some u /\ align_op Intersect false u fx = Some r /\
  carried (fun n => if str_dec n (T "e2") then Some fy else Some fx) ex_steps t r /\ r = file_of [T "# 1.5"; T "a b c"; T "NULL ({ 2 }) x ({ 1 }) y ({ 3 }) "].
Proof.
  do 5 eexists. split; [vm_compute; reflexivity|]. split; [vm_compute; reflexivity|]. split; [vm_compute; reflexivity|].
  split; [vm_compute; reflexivity|]. split; [vm_compute; reflexivity|]. split; [|vm_compute; reflexivity].
  eapply carried_step; [reflexivity|vm_compute; reflexivity|]. eapply carried_step; [reflexivity|vm_compute; reflexivity|]. constructor.
Qed.
