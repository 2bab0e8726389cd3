(** Table files of the phrase model: reading what was printed. *)
From Coq Require Import Ascii String Arith ZArith NArith List Bool Lia.
From Verif Require Import TextSpec TextModel TextProofs AMap VocabSpec VocabModel VocabProofs PmSpec PmModel PmProofs.
Import ListNotations.
Open Scope Z_scope.
Definition isSP (c : ascii) : bool := Ascii.eqb c SP.
Notation flds := (TextSpec.words isSP).
Lemma no_sp : forall w, ~ In SP w -> forallb (fun c => negb (isSP c)) w = true.
Proof. intros w H. apply forallb_forall. intros c Hc. apply negb_true_iff, Ascii.eqb_neq. intros ->. auto. Qed.
Lemma flds_token : forall w r, w <> [] -> ~ In SP w -> (match r with [] => True | c :: _ => c = SP end) -> flds (w ++ r) = w :: flds r.
Proof. intros w r N H B. apply words_token; [exact N|apply no_sp, H|]. destruct r; [exact B|]. subst. reflexivity. Qed.
Lemma flds_sp : forall r, flds (SP :: r) = flds r.
Proof. intros. apply words_sep. reflexivity. Qed.
Lemma flds_src : forall ss r, Forall file_word ss -> flds (concat (map (fun w => w ++ [SP]) ss) ++ r) = ss ++ flds r.
Proof.
  induction ss as [|w ss IH]; intros r F; [reflexivity|]. inversion F as [|? ? (N & H & _) F']; subst. cbn [map concat]. rewrite <- !app_assoc. cbn [app]. rewrite flds_token by (auto; reflexivity).
  rewrite flds_sp, IH by auto. reflexivity.
Qed.
Lemma flds_trg : forall ts r, Forall file_word ts -> (match r with [] => True | c :: _ => c = SP end) -> flds (concat (map (fun w => SP :: w) ts) ++ r) = ts ++ flds r.
Proof.
  induction ts as [|w ts IH]; intros r F B; [reflexivity|]. inversion F as [|? ? (N & H & _) F']; subst. cbn [map concat]. rewrite <- !app_assoc. cbn [app]. rewrite flds_sp, flds_token; auto.
  - rewrite IH by auto. reflexivity.
  - destruct ts as [|x ts]; cbn [map concat app]; [exact B|reflexivity].
Qed.
Lemma fmt8_clean : forall z, fmt8 z <> [] /\ ~ In SP (fmt8 z) /\ ~ In NL (fmt8 z) /\ ~ In NUL (fmt8 z).
Proof.
  intros z. unfold fmt8. pose proof (dec_shape (Z.to_nat (Z.abs z))) as F. rewrite Forall_forall in F. set (d := dec (Z.to_nat (Z.abs z))) in *.
  assert (X : forall c, In c ((if z <? 0 then [ascii_of_nat 45] else []) ++ d ++ T ".00000000") -> c = ascii_of_nat 45 \/ (exists k, (k < 10)%nat /\ c = digit k) \/ In c (T ".00000000")).
  { intros c Hc. apply in_app_or in Hc. destruct Hc as [Hc|Hc]; [left; destruct (z <? 0); [destruct Hc as [<-|[]]; reflexivity|destruct Hc]|]. apply in_app_or in Hc. destruct Hc as [Hc|Hc]; auto. }
  split; [destruct (z <? 0); [discriminate|]; cbn [app]; destruct d; discriminate|].
  repeat split; intros Hc; apply X in Hc; (destruct Hc as [Hc|[(k & Hk & Hc)|Hc]]; [discriminate|destruct (digit_clean k Hk) as (A & B & C); congruence|cbn in Hc; intuition discriminate]).
Qed.
Lemma line_fields : forall l, file_line l -> flds (line_text l) = l_s l ++ T "|||" :: l_t l ++ [T "|||"; fmt8 (l_cs l); fmt8 (l_cst l)].
Proof.
  intros l (Fs & Ft & _). unfold line_text. rewrite flds_src by exact Fs. f_equal.
  destruct (fmt8_clean (l_cs l)) as (A1 & A2 & _). destruct (fmt8_clean (l_cst l)) as (B1 & B2 & _).
  rewrite flds_token; [|discriminate|cbn; intuition discriminate|destruct (l_t l); reflexivity]. f_equal.
  change (T " ||| ") with (SP :: T "|||" ++ [SP]). change (T " ") with [SP]. rewrite flds_trg by (auto; reflexivity). f_equal.
  cbn [app]. rewrite flds_sp. rewrite <- app_assoc. cbn [app]. rewrite (flds_token (T "|||")); [|discriminate|cbn; intuition discriminate|reflexivity]. f_equal.
  rewrite flds_sp. rewrite flds_token by (auto; reflexivity). f_equal. rewrite flds_sp. rewrite <- (app_nil_r (fmt8 (l_cst l))) at 1. rewrite flds_token by auto. reflexivity.
Qed.
Lemma line_good : forall l, file_line l -> good_line (line_text l).
Proof.
  intros l (Fs & Ft & _). rewrite Forall_forall in Fs, Ft. destruct (fmt8_clean (l_cs l)) as (_ & _ & A1 & A2). destruct (fmt8_clean (l_cst l)) as (_ & _ & B1 & B2). unfold line_text.
  assert (Cs : forall c, In c (concat (map (fun w => w ++ [SP]) (l_s l))) -> c = SP \/ exists w, In w (l_s l) /\ In c w).
  { intros c Hc. apply in_concat in Hc. destruct Hc as [x [Hx Hc]]. apply in_map_iff in Hx. destruct Hx as [w [<- Hw]]. apply in_app_or in Hc. destruct Hc as [Hc|[<-|[]]]; eauto. }
  assert (Ct : forall c, In c (concat (map (fun w => SP :: w) (l_t l))) -> c = SP \/ exists w, In w (l_t l) /\ In c w).
  { intros c Hc. apply in_concat in Hc. destruct Hc as [x [Hx Hc]]. apply in_map_iff in Hx. destruct Hx as [w [<- Hw]]. destruct Hc as [<-|Hc]; eauto. }
  split; intros H; rewrite !in_app_iff in H; (destruct H as [H|[H|[H|[H|[H|[H|H]]]]]];
    [apply Cs in H; destruct H as [H|(w & Hw & H)]; [discriminate|destruct (Fs w Hw) as (_ & _ & X & Y & _); first [exact (X H)|exact (Y H)]]
    |cbn in H; intuition discriminate
    |apply Ct in H; destruct H as [H|(w & Hw & H)]; [discriminate|destruct (Ft w Hw) as (_ & _ & X & Y & _); first [exact (X H)|exact (Y H)]]
    |cbn in H; intuition discriminate|auto|cbn in H; intuition discriminate|auto]).
Qed.
(** ** numbers *)
Lemma dval_some : forall k, (k < 10)%nat -> dval (digit k) = Some k. Proof. exact dval_digit. Qed.
Lemma split_digits_ok : forall ds r, Forall (fun c => exists d, (d < 10)%nat /\ c = digit d) ds -> (match r with [] => True | c :: _ => dval c = None end) -> split_digits (ds ++ r) = (ds, r).
Proof.
  induction ds as [|c ds IH]; intros r F B; [destruct r; [reflexivity|cbn; now rewrite B]|]. inversion F as [|? ? (d & Hd & ->) F']; subst. cbn [app split_digits]. rewrite dval_digit by exact Hd. rewrite IH by auto. reflexivity.
Qed.
Lemma atof_fmt8 : forall z, atof (fmt8 z) = Some z.
Proof.
  intros z. unfold fmt8. set (n := Z.to_nat (Z.abs z)). pose proof (dec_shape n) as F. pose proof (dec_ne n) as NE.
  pose proof (digits_dec_aux (Datatypes.S n) n [] ltac:(lia)) as D. fold (dec n) in D. cbn [digits] in D.
  assert (SD : split_digits (dec n ++ T ".00000000") = (dec n, T ".00000000")) by (apply split_digits_ok; [exact F|reflexivity]).
  assert (V : Z.of_N (digits (dec n) 0) = Z.abs z) by (rewrite D; unfold n; lia).
  unfold atof. destruct (Z.ltb_spec z 0) as [Neg|Pos].
  - cbn [app]. change (Ascii.eqb (ascii_of_nat 45) "-"%char) with true. cbn iota. rewrite SD. destruct (dec n) as [|c r] eqn:E; [contradiction|].
    change (Ascii.eqb "."%char "."%char && forallb (fun d => Ascii.eqb d "0"%char) (T "00000000")) with true. rewrite V. cbn. f_equal. lia.
  - cbn [app]. destruct (dec n) as [|c r] eqn:E; [contradiction|]. inversion F as [|? ? (d & Hd & Ec) F']. subst c. cbn [app].
    assert (Ascii.eqb (digit d) "-"%char = false /\ Ascii.eqb (digit d) "+"%char = false) as [-> ->]. { clear - Hd. do 10 (destruct d as [|d]; [split; reflexivity|]). lia. }
    cbn [app] in SD. rewrite SD. rewrite V. cbn. f_equal. lia.
Qed.
(** ** one line *)
Lemma read_phrase_ok : forall ws fuel buf pre post, flds buf = pre ++ ws ++ post -> Forall (fun w => w <> T "|||") ws ->
  (match post with [] => True | c :: _ => c = T "|||" end) -> (length ws < fuel)%nat ->
  read_phrase fuel buf (length (flds buf)) (S (length pre)) = Some (ws, S (length pre + length ws)).
Proof.
  induction ws as [|w ws IH]; intros fuel buf pre post E F B Hf; (destruct fuel as [|fuel]; [lia|]); cbn [read_phrase].
  - rewrite Nat.add_0_r. destruct (Nat.ltb_spec (length (flds buf)) (S (length pre))) as [L|L]; [reflexivity|]. rewrite dollar_words. cbn [app] in E.
    change (TextSpec.words (fun c => Ascii.eqb c SP) buf) with (flds buf). rewrite E, app_nth2, Nat.sub_diag by lia. destruct post as [|c post]; [rewrite E, app_length in L; cbn in L; lia|]. subst c. cbn [nth].
    destruct (str_dec (T "|||") (T "|||")); [reflexivity|contradiction].
  - inversion F as [|? ? Nw F']; subst. assert (Len : (S (length pre) <= length (flds buf))%nat) by (rewrite E, !app_length; cbn [length]; lia).
    destruct (Nat.ltb_spec (length (flds buf)) (S (length pre))) as [L|L]; [lia|]. rewrite dollar_words. change (TextSpec.words (fun c => Ascii.eqb c SP) buf) with (flds buf).
    assert (Nw0 : nth (length pre) (flds buf) [] = w) by (rewrite E, app_nth2, Nat.sub_diag by lia; reflexivity). rewrite Nw0. destruct (str_dec w (T "|||")); [contradiction|].
    specialize (IH fuel buf (pre ++ [w]) post). rewrite app_length in IH. cbn [length] in IH. rewrite Nat.add_1_r in IH. rewrite IH; auto; [|rewrite <- app_assoc; exact E|cbn in Hf; lia].
    f_equal. f_equal. cbn [length]. lia.
Qed.
Definition line_sop (l : tline) : sop := SAdd (l_s l) (l_t l) (l_cs l) (l_cst l).
Lemma load_line_ok : forall l m, file_line l -> load_line (line_text l) m = Some (pm_step m (line_sop l)).
Proof.
  intros l m FL. pose proof (line_fields l FL) as E. destruct FL as (Fs & Ft & Ns & Nt). unfold load_line. rewrite get_NF_words. change (TextSpec.words (fun c => Ascii.eqb c SP) (line_text l)) with (flds (line_text l)).
  set (buf := line_text l) in *. assert (NF : length (flds buf) = (length (l_s l) + length (l_t l) + 4)%nat) by (rewrite E, app_length; cbn [length]; rewrite app_length; cbn [length]; lia).
  destruct (Nat.ltb_spec 1 (length (flds buf))); [|lia].
  assert (Ws : Forall (fun w => w <> T "|||") (l_s l)) by (eapply Forall_impl; [|exact Fs]; intros w Hw; apply Hw).
  assert (Wt : Forall (fun w => w <> T "|||") (l_t l)) by (eapply Forall_impl; [|exact Ft]; intros w Hw; apply Hw).
  pose proof (read_phrase_ok (l_s l) (S (length (flds buf))) buf [] (T "|||" :: l_t l ++ [T "|||"; fmt8 (l_cs l); fmt8 (l_cst l)]) E Ws eq_refl ltac:(lia)) as R1. cbn [length] in R1. rewrite R1. cbn [Nat.add].
  assert (E2 : flds buf = (l_s l ++ [T "|||"]) ++ l_t l ++ [T "|||"; fmt8 (l_cs l); fmt8 (l_cst l)]) by (rewrite E, <- app_assoc; reflexivity).
  pose proof (read_phrase_ok (l_t l) (S (S (length (flds buf)))) buf _ _ E2 Wt eq_refl ltac:(lia)) as R2. rewrite app_length in R2. cbn [length] in R2. rewrite Nat.add_1_r in R2. rewrite R2.
  destruct (Nat.ltb_spec (S (S (length (l_s l)) + length (l_t l))) (length (flds buf) - 1)); [|lia].
  rewrite !dollar_words. change (TextSpec.words (fun c => Ascii.eqb c SP) buf) with (flds buf).
  assert (E3 : flds buf = (l_s l ++ T "|||" :: l_t l) ++ [T "|||"; fmt8 (l_cs l); fmt8 (l_cst l)]) by (rewrite E, <- app_assoc; reflexivity).
  assert (Len : length (l_s l ++ T "|||" :: l_t l) = (S (length (l_s l)) + length (l_t l))%nat) by (rewrite app_length; cbn [length]; lia).
  rewrite E3. rewrite !app_nth2 by lia. rewrite Len. replace (S (length (l_s l)) + length (l_t l) - (S (length (l_s l)) + length (l_t l)))%nat with 0%nat by lia.
  replace (S (S (length (l_s l)) + length (l_t l)) - (S (length (l_s l)) + length (l_t l)))%nat with 1%nat by lia.
  replace (S (S (S (length (l_s l)) + length (l_t l))) - (S (length (l_s l)) + length (l_t l)))%nat with 2%nat by lia. cbn [nth].
  destruct (str_dec (T "|||") (T "|||")); [|contradiction]. rewrite !atof_fmt8. destruct (l_s l) eqn:Q1; [contradiction|]. destruct (l_t l) eqn:Q2; [contradiction|].
  unfold line_sop. rewrite Q1, Q2. reflexivity.
Qed.
Theorem load_file_ok : forall ls m, Forall file_line ls -> loadPlainTextTTable (ttable_file ls) m = Some (pm_run (map line_sop ls) m).
Proof.
  intros ls m F. unfold loadPlainTextTTable. assert (E : ttable_file ls = file_of (map line_text ls)) by (unfold ttable_file, file_of; now rewrite map_map).
  rewrite E, read_lines_ok by (apply Forall_map; eapply Forall_impl; [|exact F]; apply line_good). clear E. revert m. induction F as [|l ls FL F IH]; intros m; [reflexivity|].
  cbn [map load_ttable_lines]. rewrite load_line_ok by exact FL. apply IH.
Qed.
