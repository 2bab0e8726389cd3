(** C159: scripts of alignment operations on a container (-exhaustive). *)
From Coq Require Import Ascii String Arith ZArith NArith QArith List Bool Lia.
From Verif Require Import TextSpec TextModel TextProofs VocabSpec VocabModel AligSpec AligModel PmModel PmText GfmtModel WgfSpec WgfModel WgfText GizaSpec GizaModel GizaText ContSpec ContModel PropertiesCont OpsModel OpsSpec OpsProofs OpsContModel.
Import ListNotations.
Local Open Scope nat_scope.

Lemma cont_line_step : forall s fs c, clean_name (s_file s) -> cont_line (step_line s) fs c = cont_exec (s_op s) (s_file s) (s_tr s) fs c.
Proof.
  intros s fs c C. pose proof (op_text_clean (s_op s)) as (A1 & A2 & _). pose proof (flag_clean (s_tr s)) as (B1 & B2 & _). destruct C as (C1 & C2 & _).
  unfold cont_line. rewrite get_NF_words, !dollar_words. unfold step_line. rewrite !three_words by auto. cbn [length Nat.eqb nth]. rewrite op_named_text.
  destruct (s_tr s); reflexivity.
Qed.
Definition calls_of (fs : files) (l : list step) (qs : list ccall) : Prop :=
  Forall2 (fun s (q : ccall) => fst q = (s_op s, s_tr s) /\ fs (s_file s) = Some (snd q)) l qs.
Lemma cont_ops_none : forall qs, cont_ops qs None = None.
Proof. induction qs as [|[[o tr] f] qs IH]; [reflexivity|]. unfold cont_ops in *. cbn [fold_left cont_op]. destruct (read_giza f) as [es|]; [|exact IH].
  replace (fold_left (op_entry o) (map (turn tr) es) None) with (@None cont); [exact IH|]. generalize (map (turn tr) es). intro l. induction l; auto.
Qed.
Lemma cont_lines_ok : forall fs l qs c c', Forall (fun s => clean_name (s_file s)) l -> calls_of fs l qs -> cont_ops qs (Some c) = Some c' ->
  forall r, cont_lines (map step_line l ++ r) fs c = cont_lines r fs c'.
Proof.
  intros fs l. induction l as [|s l IH]; intros qs c c' F C E r; inversion C as [|? q ? qs' [H1 H2] C']; subst; [cbn in E; injection E as <-; reflexivity|].
  inversion F; subst. cbn [map app cont_lines]. rewrite cont_line_step by auto. unfold cont_exec. rewrite H2. destruct q as [ot fy]. cbn [fst snd] in *. subst ot.
  change (cont_ops ((s_op s, s_tr s, fy) :: qs') (Some c)) with (cont_ops qs' (cont_op (Some c) (s_op s, s_tr s, fy))) in E.
  destruct (cont_op (Some c) (s_op s, s_tr s, fy)) as [c1|]; [|rewrite cont_ops_none in E; discriminate]. eapply IH; eauto.
Qed.
(** C159. For storable alignments a script with any number of steps on existing files does to the alignments of every sentence pair just what its steps say, one
    after the other, and the output has every sentence pair once. *)
Theorem C159_exhaustive : forall tr f es l qs gs fs, read_giza f = Some es -> Forall (storable tr) es -> small (length es) ->
  Forall (fun s => clean_name (s_file s)) l -> calls_of fs l qs ->
  Forall2 (fun (q : ccall) g => read_giza (snd q) = Some g /\ Forall (storable (snd (fst q))) g) qs gs ->
  exists es' gs' txt lc, Forall2 (seen tr) es es' /\ operand_files qs gs gs' /\ exhaustive_main tr f (script_text l) fs = Some txt /\ read_giza txt = Some lc /\
    NoDup (map pair_of lc) /\ (forall p, In p (map pair_of lc) <-> In p (map pair_of es')) /\
    forall x, In x lc -> exists r, kept es' (ops_spec qs gs') (pair_of x) r /\ wsame r (e_al x).
Proof.
  intros tr f es l qs gs fs R F S Q C G. destruct (C119_operations tr f es qs gs R F S G) as (es' & gs' & c & c' & txt & lc & H1 & H2 & H3 & H4 & H5 & H6 & H7 & H8 & H9).
  exists es', gs', txt, lc. split; [exact H1|]. split; [exact H2|]. split.
  - unfold exhaustive_main. rewrite H3, read_script by auto. rewrite <- (app_nil_r (map step_line l)). rewrite (cont_lines_ok fs l qs c c' Q C H4). exact H5.
  - split; [exact H6|]. split; [exact H7|]. split; [exact H8|]. intros x I. apply (H9 x I).
Qed.
Print Assumptions C159_exhaustive.
(** C159: a step whose file does not exist ends the script, but nothing shows it: the result of the steps before it is written and success is reported,
    as if the step and all that follow it were not there. *)
Theorem C159_failure_unreported_refuted : forall tr f c c' l s l2 qs fs, extract tr f = Some c -> Forall (fun s => clean_name (s_file s)) (l ++ s :: l2) ->
  calls_of fs l qs -> cont_ops qs (Some c) = Some c' -> fs (s_file s) = None ->
  exhaustive_main tr f (script_text (l ++ s :: l2)) fs = exhaustive_main tr f (script_text l) fs.
Proof.
  intros tr f c c' l s l2 qs fs E F C O M. pose proof F as F0. apply Forall_app in F. destruct F as [F1 F2]. inversion F2; subst.
  unfold exhaustive_main. rewrite E, !read_script by auto. rewrite map_app, (cont_lines_ok fs l qs c c' F1 C O). rewrite <- (app_nil_r (map step_line l)).
  rewrite (cont_lines_ok fs l qs c c' F1 C O). cbn [map cont_lines]. rewrite cont_line_step by auto. unfold cont_exec. now rewrite M.
Qed.
Print Assumptions C159_failure_unreported_refuted.
(** the first file of PropertiesCont intersected with the transposed second *)
Definition exc_steps : list step := [mkstep Intersect (T "e2") true].
Definition exc_files : files := fun n => if str_dec n (T "e2") then Some cf2 else None.
Example C159_nonvacuous : script_text exc_steps = file_of [T "-and e2 1"] /\ Forall (fun s => clean_name (s_file s)) exc_steps /\
  calls_of exc_files exc_steps [(Intersect, true, cf2)] /\
  (exists es g, read_giza cf1 = Some es /\ length es = 3 /\ Forall (storable false) es /\ read_giza cf2 = Some g /\ Forall (storable true) g) /\
  exhaustive_main false cf1 (script_text exc_steps) exc_files = Some (cfile "# 1" ["c"; "NULL ({ 1 }) y ({ }) "; "# 2"; "a b"; "NULL ({ 1 }) x ({ 2 }) "]%string).
Proof.
  split; [reflexivity|]. split; [repeat constructor; try discriminate; cbn; intuition discriminate|]. split; [repeat constructor|]. split.
  - destruct C118_nonvacuous as (es & R & L & F & _). destruct C119_nonvacuous as (g & c & c' & G & FG & _). exists es, g. auto.
  - vm_compute. reflexivity.
Qed.
