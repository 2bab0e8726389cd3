(** Proofs about scripts of alignment operations. *)
From Coq Require Import Ascii String Arith NArith List Bool Lia.
From Verif Require Import TextSpec TextModel TextProofs VocabSpec VocabModel VocabProofs GizaSpec GizaModel OpsModel OpsSpec.
Import ListNotations.
Local Open Scope nat_scope.

Lemma clean_forall : forall w, ~ In SP w -> forallb (fun c => negb (Ascii.eqb c SP)) w = true.
Proof. intros w H. apply forallb_forall. intros c Hc. apply negb_true_iff, Ascii.eqb_neq. intros ->. auto. Qed.
Lemma three_words : forall a b c, a <> [] -> b <> [] -> c <> [] -> ~ In SP a -> ~ In SP b -> ~ In SP c ->
  words (fun c => Ascii.eqb c SP) (a ++ SP :: b ++ SP :: c) = [a; b; c].
Proof.
  intros a b c Na Nb Nc Ha Hb Hc. rewrite words_token by (auto using clean_forall). rewrite words_sep by reflexivity.
  rewrite words_token by (auto using clean_forall). rewrite words_sep by reflexivity.
  rewrite <- (app_nil_r c) at 1. rewrite words_token by (auto using clean_forall). reflexivity.
Qed.
Lemma op_text_clean : forall o, clean_name (op_text o).
Proof. intro o. unfold clean_name. destruct o; (split; [discriminate|]); repeat split; intro H; cbn in H; intuition discriminate. Qed.
Lemma op_named_text : forall o, op_named (op_text o) = Some o.
Proof. destruct o; reflexivity. Qed.
Lemma flag_clean : forall b : bool, clean_name (T (if b then "1" else "0")).
Proof. intro b. unfold clean_name. destruct b; (split; [discriminate|]); repeat split; intro H; cbn in H; intuition discriminate. Qed.
Lemma line_good : forall s, clean_name (s_file s) -> good_line (step_line s).
Proof.
  intros s (_ & _ & N1 & N2). pose proof (op_text_clean (s_op s)) as (_ & _ & A1 & A2). pose proof (flag_clean (s_tr s)) as (_ & _ & B1 & B2).
  unfold step_line. split; intro H; apply in_app_or in H; destruct H as [H|[H|H]]; auto; try discriminate; apply in_app_or in H; destruct H as [H|[H|H]]; auto; discriminate.
Qed.
Lemma line_fields : forall out s fs t, clean_name (s_file s) ->
  exec_line out (step_line s) fs t = match exec_op out (s_op s) (s_file s) (s_tr s) fs t with
                                     | None => None
                                     | Some (Failed fs) => Some (Failed fs)
                                     | Some (Went fs _) => match fs out with None => Some (Failed fs) | Some r => Some (Went fs r) end end.
Proof.
  intros out s fs t C. pose proof (op_text_clean (s_op s)) as (A1 & A2 & _). pose proof (flag_clean (s_tr s)) as (B1 & B2 & _). destruct C as (C1 & C2 & _).
  unfold exec_line. rewrite get_NF_words, !dollar_words. unfold step_line. rewrite !three_words by auto. cbn [length Nat.eqb nth]. rewrite op_named_text.
  destruct (s_tr s); reflexivity.
Qed.
Lemma fput_same : forall n t fs, fput n t fs n = Some t.
Proof. intros. unfold fput. destruct (str_dec n n); congruence. Qed.
Lemma fput_other : forall n t fs m, m <> n -> fput n t fs m = fs m.
Proof. intros. unfold fput. destruct (str_dec n m); congruence. Qed.
Lemma step_went : forall out s fs t fy u, clean_name (s_file s) -> s_file s <> out -> fs (s_file s) = Some fy -> align_op (s_op s) (s_tr s) t fy = Some u ->
  exec_line out (step_line s) fs t = Some (Went (fput out u (fput out [] fs)) u).
Proof.
  intros out s fs t fy u C N F A. rewrite line_fields by auto. unfold exec_op. rewrite fput_other, F, A by auto. now rewrite fput_same.
Qed.
Lemma run_steps : forall out l fs0 fs t r, Forall (fun s => clean_name (s_file s) /\ s_file s <> out) l -> (forall n, n <> out -> fs n = fs0 n) ->
  carried fs0 l t r -> exists fs', exec_lines out (map step_line l) fs t = Some (Went fs' r) /\
    (forall n, n <> out -> fs' n = fs0 n) /\ (l <> [] -> fs' out = Some r).
Proof.
  intros out l fs0. induction l as [|s l IH]; intros fs t r F S C.
  - inversion C; subst. exists fs. split; [reflexivity|]. split; auto. congruence.
  - inversion F as [|? ? [C1 N1] F']; subst. inversion C as [|? ? ? u ? fy H1 H2 H3]; subst. cbn [map exec_lines].
    rewrite (step_went out s fs t fy u) by (auto; rewrite S; auto). set (fs1 := fput out u (fput out [] fs)).
    assert (S1 : forall n, n <> out -> fs1 n = fs0 n). { intros n Hn. unfold fs1. rewrite !fput_other by auto. auto. }
    destruct (IH fs1 u r F' S1 H3) as (fs' & E & O & L). exists fs'. split; [exact E|]. split; auto. intros _.
    destruct l as [|s2 l]; [|apply L; discriminate]. inversion H3; subst. cbn in E. injection E as <-. unfold fs1. apply fput_same.
Qed.
Lemma read_script : forall l, Forall (fun s => clean_name (s_file s)) l -> read_lines (script_text l) = Some (map step_line l).
Proof.
  intros l F. replace (script_text l) with (file_of (map step_line l)); [apply read_lines_ok|unfold script_text, file_of; now rewrite map_map].
  induction F; cbn [map]; constructor; auto. now apply line_good.
Qed.
From Verif Require Import GizaProofs PropertiesGiza.
Lemma entries_carried : forall ents fs l la t, Forall wf_entry la -> giza_file la = Some t ->
  Forall (fun s => Forall wf_entry (ents (s_file s)) /\ fs (s_file s) = giza_file (ents (s_file s))) l ->
  exists lr r, carried fs l t r /\ combined_all ents l la lr /\ Forall wf_entry lr /\ giza_file lr = Some r.
Proof.
  intros ents fs l. induction l as [|s l IH]; intros la t W G F.
  - exists la, t. repeat split; auto; constructor.
  - inversion F as [|? ? [W2 G2] F']; subst. destruct (C115_operations (s_op s) (s_tr s) la (ents (s_file s)) W W2) as (fa & fb & fc & lc & E1 & E2 & E3 & E4 & W3 & Z).
    rewrite G in E1. injection E1 as <-. destruct (IH lc fc W3 E3 F') as (lr & r & C & Z2 & W4 & E5). exists lr, r. repeat split; auto.
    + econstructor; [rewrite G2; exact E2|exact E4|exact C].
    + econstructor; eauto.
Qed.
Lemma exec_app : forall out l1 l2 fs t fs1 t1, exec_lines out l1 fs t = Some (Went fs1 t1) -> exec_lines out (l1 ++ l2) fs t = exec_lines out l2 fs1 t1.
Proof.
  intros out l1. induction l1 as [|x l1 IH]; intros l2 fs t fs1 t1 H; cbn [app exec_lines] in *; [injection H as <- <-; reflexivity|].
  destruct (exec_line out x fs t) as [[fs2 t2|fs2]|]; try discriminate. now apply IH.
Qed.
(** the line of a step without its last character *)
Definition cut_line (s : step) : str := op_text (s_op s) ++ SP :: s_file s ++ [SP].
Lemma cut_line_eq : forall s, exists c, c <> NL /\ step_line s = cut_line s ++ [c].
Proof.
  intro s. unfold step_line, cut_line. destruct (s_tr s); [exists "1"%char|exists "0"%char]; (split; [discriminate|]); rewrite <- !app_assoc; cbn [app]; now rewrite <- app_assoc.
Qed.
Lemma cut_line_fails : forall out s fs t, clean_name (s_file s) -> exec_line out (cut_line s) fs t = Some (Failed fs).
Proof.
  intros out s fs t (C1 & C2 & _). pose proof (op_text_clean (s_op s)) as (A1 & A2 & _). unfold exec_line. rewrite get_NF_words, !dollar_words. unfold cut_line.
  rewrite words_token by (auto using clean_forall). rewrite words_sep by reflexivity. rewrite words_token by (auto using clean_forall). reflexivity.
Qed.
