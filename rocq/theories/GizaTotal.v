(** Any alignment file can be read, and any two can be operated on, without leaving the matrices. *)
From Coq Require Import Ascii String Arith ZArith NArith QArith List Bool Lia.
From Verif Require Import TextSpec TextModel TextProofs VocabSpec VocabModel VocabProofs AligSpec AligModel AligProofs PmModel PmText GfmtModel GfmtProofs GfmtText WgfSpec WgfModel WgfText GizaSpec GizaModel GizaText GizaProofs.
Import ListNotations.
Local Open Scope nat_scope.
Definition line_ok (l : str) : Prop :=
  (forall k w, dollar SP l (S k) = Some w -> atoi w <> None) /\ (forall h w, dollar SP l 1 = Some h -> h = T "#" \/ h = T "<ALMOHADILLA>" -> dollar SP l 2 = Some w -> get_NF SP l = Some 2 -> atofq w <> None).
Lemma all_lines_total : forall fuel file, length file <= fuel -> exists ls, all_lines fuel file = Some ls.
Proof.
  induction fuel as [|f IH]; intros file H.
  - destruct file; [exists []; reflexivity|cbn in H; lia].
  - cbn [all_lines]. destruct file as [|c file]; [exists []; reflexivity|]. unfold TextModel.getln. destruct (span _ (c :: file)) as [a b] eqn:E.
    assert (L : length (match b with [] => [] | _ :: r => r end) <= f).
    { assert (X : forall p l a b, span p l = (a, b) -> length b <= length l). { clear. induction l as [|x l IH]; intros a b E; cbn [span] in E; [injection E as <- <-; cbn; lia|]. destruct (p x); [destruct (span p l) as [u v] eqn:S1; injection E as <- <-; specialize (IH u v eq_refl); cbn [length]; lia|injection E as <- <-; cbn [length]; lia]. }
      specialize (X _ _ _ _ E). cbn [length] in *. destruct b; cbn [length] in *; lia. }
    destruct (IH _ L) as (ls & R). rewrite R. eexists. reflexivity.
Qed.
Lemma read_lines_total : forall file, exists ls, read_lines file = Some ls.
Proof. intros file. apply all_lines_total. lia. Qed.
Section L.
Context (buf : str) (OK : forall k, atoi (nth k (flds buf) []) <> None).
Lemma skip_total : forall fuel k, exists k', skip_to_open fuel buf (length (flds buf)) (S k) = Some (S k') /\ k <= k'.
Proof.
  induction fuel as [|f IH]; intros k; cbn [skip_to_open]; [exists k; auto|]. destruct (S k <=? length (flds buf)); [|exists k; auto]. rewrite dol. cbn [is_tok].
  destruct (str_dec _ _); [exists k; auto|]. destruct (IH (S k)) as (k' & E & L). exists k'. split; [exact E|lia].
Qed.
Lemma links_total : forall fuel k sp nt m, (exists m', read_links fuel buf (length (flds buf)) (S k) sp nt m = Some (Stop m') /\ same_dims m' m) \/
  (exists m' k', read_links fuel buf (length (flds buf)) (S k) sp nt m = Some (Go m' (S k')) /\ k <= k' /\ same_dims m' m).
Proof.
  induction fuel as [|f IH]; intros k sp nt m; cbn [read_links]; [right; exists m, k; repeat split; auto|]. destruct (S k <=? length (flds buf)); [|right; exists m, k; repeat split; auto]. rewrite dol.
  destruct (str_dec _ _); [right; exists m, k; repeat split; auto|]. destruct (atoi (nth k (flds buf) [])) as [p|] eqn:E; [|now apply OK in E]. destruct ((p =? 0) || (nt <? p)); [left; exists m; repeat split|].
  fold (add_link sp m p). destruct (add_link_dims sp m p) as [D1 D2]. destruct (IH (S k) sp nt (add_link sp m p)) as [(m' & R & [A B])|(m' & k' & R & L & [A B])].
  - left. exists m'. split; [exact R|split; congruence].
  - right. exists m', k'. split; [exact R|]. split; [lia|split; congruence].
Qed.
Lemma count_skipn : forall (l : list str) k k', k <= k' -> count_occ str_dec (skipn k' l) OB <= count_occ str_dec (skipn k l) OB.
Proof.
  intros l k k' H. induction H as [|k' H IH]; [lia|]. etransitivity; [|exact IH]. destruct (Nat.lt_ge_cases k' (length l)) as [L|L].
  - rewrite (skipn_nth str [] l k') by exact L. cbn [count_occ]. destruct (str_dec _ _); lia.
  - rewrite !skipn_all2 by lia. cbn. lia.
Qed.
Lemma rwl_total : forall fuel k sp nt ns m, exists ns' m', read_words_links fuel buf (length (flds buf)) (S k) sp nt ns m = Some (ns', m') /\ same_dims m' m /\
  length ns' <= length ns + count_occ str_dec (skipn k (flds buf)) OB.
Proof.
  induction fuel as [|f IH]; intros k sp nt ns m; cbn [read_words_links]; [exists ns, m; repeat split; lia|]. destruct (Nat.leb_spec (S k) (length (flds buf))) as [L|L]; [|exists ns, m; repeat split; lia].
  rewrite !dol. cbn [is_tok]. destruct (skip_total (S (length (flds buf))) (S k)) as (k1 & E1 & L1). rewrite E1.
  destruct (links_total (S (length (flds buf))) (S k1) sp nt m) as [(m' & R & D)|(m' & k2 & R & L2 & D)]; rewrite R.
  - exists ns, m'. split; [reflexivity|]. split; [exact D|]. lia.
  - destruct (IH (S k2) (S sp) nt (if (if str_dec (nth (S k) (flds buf) []) OB then true else false) then ns ++ [nth k (flds buf) []] else ns) m') as (ns' & m'' & R' & [A B] & LN). exists ns', m''. split; [exact R'|]. destruct D as [D1 D2]. split; [split; congruence|].
    pose proof (count_skipn (flds buf) (S (S k)) (S k2) ltac:(lia)) as C. destruct (str_dec (nth (S k) (flds buf) []) OB) as [X|X].
    + rewrite app_length in LN. cbn [length] in LN. assert (L3 : S k < length (flds buf)). { destruct (Nat.lt_ge_cases (S k) (length (flds buf))) as [Y|Y]; [exact Y|]. rewrite nth_overflow in X by lia. discriminate X. }
      pose proof (count_skipn (flds buf) k (S k) ltac:(lia)) as C2. rewrite (skipn_nth str [] _ (S k)) in C2 by lia. rewrite X in C2. cbn [count_occ] in C2. destruct (str_dec OB OB); [|contradiction]. lia.
    + pose proof (count_skipn (flds buf) k (S (S k)) ltac:(lia)). lia.
Qed.
End L.
Definition strm_ok (s : strm) : Prop := line_ok (s_buf s) /\ Forall line_ok (s_rest s).
Lemma line_ok_nth : forall l, line_ok l -> forall k, atoi (nth k (flds l) []) <> None.
Proof. intros l [A _] k. apply (A k). apply dol. Qed.
Lemma getln_ok : forall s, strm_ok s -> strm_ok (snd (GizaModel.getln s)) /\ length (s_rest (snd (GizaModel.getln s))) <= length (s_rest s).
Proof. intros [b [|l r]] [A B]; unfold GizaModel.getln; cbn [s_rest snd]; [split; [split; assumption|lia]|]. inversion B; subst. split; [split; assumption|]. cbn [s_rest length]. lia. Qed.
Lemma next_total : forall x s, strm_ok s -> exists b e s', nextGIZA x s = Some (b, e, s') /\ strm_ok s' /\
  (b = true -> length (e_ns e) <= S (wI (e_al e)) /\ wJ (e_al e) = length (e_t e) /\ length (s_rest s') < length (s_rest s)).
Proof.
  intros x [b ls] [OB0 OR]. unfold nextGIZA. destruct ls as [|l ls]; cbn [GizaModel.getln s_rest negb]; [exists false; do 2 eexists; split; [reflexivity|]; split; [split; assumption|discriminate]|].
  inversion OR as [|? ? OL OR']; subst. cbn [s_buf]. rewrite nfw. assert (S1 : strm_ok (mkstrm l ls)) by (split; assumption).
  assert (H : exists o, giza_header l (length (flds l)) = Some o).
  { unfold giza_header. rewrite !dol. destruct (1 <=? length (flds l)) eqn:G; cbn [andb]; [|eexists; reflexivity]. apply Nat.leb_le in G. destruct (_ || _) eqn:HD; [|eexists; reflexivity]. destruct ((2 <? length (flds l)) || (length (flds l) =? 1)) eqn:E; [eexists; reflexivity|].
    destruct (atofq (nth 1 (flds l) [])) eqn:Q; [eexists; reflexivity|]. exfalso. destruct OL as [A B]. apply orb_false_iff in E as [E1 E2]. apply Nat.ltb_ge in E1. apply Nat.eqb_neq in E2.
    apply (B (nth 0 (flds l) []) (nth 1 (flds l) [])); [apply dol| |apply dol|rewrite nfw; f_equal; lia|exact Q]. destruct (str_dec (nth 0 (flds l) []) (T "#")); [now left|]. destruct (str_dec (nth 0 (flds l) []) (T "<ALMOHADILLA>")); [now right|discriminate HD]. }
  destruct H as [[reps|] H]; rewrite H; [|exists false; do 2 eexists; split; [reflexivity|]; split; [exact S1|discriminate]].
  destruct (getln_ok _ S1) as [S2 N2]. set (s2 := snd (GizaModel.getln (mkstrm l ls))) in *. destruct (getln_ok _ S2) as [S3 N3]. set (s3 := snd (GizaModel.getln s2)) in *. cbn [s_rest] in N2.
  rewrite !nfw. rewrite fields_from_ok by lia. rewrite count_open_ok by lia. cbn [skipn]. set (t := flds (s_buf s2)). set (n := count_occ str_dec (flds (s_buf s3)) OB).
  destruct (Nat.eqb_spec n 0) as [Z|Z]; [exists false; do 2 eexists; split; [reflexivity|]; split; [exact S3|discriminate]|].
  destruct (rwl_total (s_buf s3) (line_ok_nth _ (proj1 S3)) (S (length (flds (s_buf s3)))) 0 0 (length t) [] (AligModel.w_init (n - 1) (length t))) as (ns' & m' & R & [D1 D2] & L). rewrite R.
  exists true. do 2 eexists. split; [reflexivity|]. split; [exact S3|]. intros _. cbn [e_ns e_al e_t]. cbn [AligModel.w_init wI wJ] in D1, D2. rewrite D1, D2. cbn [skipn length s_rest] in *. fold n in L. split; [lia|]. split; [reflexivity|]. lia.
Qed.
Lemma combine1_total : forall o tr x y, exists z, combine1 o tr x y = Some z /\ e_ns z = e_ns x /\ same_dims (e_al z) (e_al x).
Proof.
  intros o tr x y. unfold combine1. set (y' := if tr then transposeAlig y else y). destruct (strs_dec _ _); [|exists x; repeat split]. destruct (strs_dec _ _); [|exists x; repeat split].
  destruct (apply_op_ok o (e_al x) (e_al y')) as (r & E & D & _). rewrite E. eexists. split; [reflexivity|]. split; [reflexivity|exact D].
Qed.
Lemma op_loop_total : forall fuel o tr x y sx sy, strm_ok sx -> strm_ok sy -> exists txt, op_loop fuel o tr x y sx sy = Some txt.
Proof.
  induction fuel as [|f IH]; intros o tr x y sx sy OX OY; cbn [op_loop]; [eexists; reflexivity|].
  destruct (next_total y sy OY) as (b & e & s' & E & OS & _). rewrite E. destruct b; [|eexists; reflexivity].
  destruct (next_total x sx OX) as (b & e2 & s2 & E2 & OS2 & P). rewrite E2. destruct b; [|eexists; reflexivity].
  destruct (combine1_total o tr e2 e) as (z & EZ & EN & [D1 D2]). rewrite EZ. destruct (P eq_refl) as (L & _).
  rewrite print_ok by (rewrite EN, D1; exact L). destruct (IH o tr z (if tr then transposeAlig e else e) s2 s' OS2 OS) as (txt & ET). rewrite ET. eexists. reflexivity.
Qed.
(** every token of the file, read as an int, fits; the second token of a header line of two tokens is a number *)
Definition numbers_ok (file : str) : Prop := forall ls, read_lines file = Some ls -> Forall line_ok ls.
Lemma empty_ok : line_ok [].
Proof. split; [intros k w E|intros h w _ _ E N; discriminate N]. rewrite dol in E. injection E as <-. destruct k; discriminate. Qed.
Lemma open_total : forall file, numbers_ok file -> exists s, s_open file = Some s /\ strm_ok s.
Proof. intros file N. destruct (read_lines_total file) as (ls & E). unfold s_open. rewrite E. eexists. split; [reflexivity|]. split; [apply empty_ok|apply N, E]. Qed.
Theorem op_total : forall o tr fx fy, numbers_ok fx -> numbers_ok fy -> exists txt, align_op o tr fx fy = Some txt.
Proof.
  intros o tr fx fy NX NY. unfold align_op. destruct (open_total fx NX) as (sx & EX & OX). destruct (open_total fy NY) as (sy & EY & OY). rewrite EX, EY. now apply op_loop_total.
Qed.
Lemma read_all_total : forall fuel x s, strm_ok s -> exists l, read_all fuel x s = Some l /\ Forall (fun e => length (e_ns e) <= S (wI (e_al e)) /\ wJ (e_al e) = length (e_t e)) l.
Proof.
  induction fuel as [|f IH]; intros x s OS; cbn [read_all]; [exists []; split; [reflexivity|constructor]|]. destruct (next_total x s OS) as (b & e & s' & E & OS' & P). rewrite E. destruct b; [|exists []; split; [reflexivity|constructor]].
  destruct (IH e s' OS') as (l & EL & F). rewrite EL. eexists. split; [reflexivity|]. constructor; [|exact F]. destruct (P eq_refl) as (A & B & _). auto.
Qed.
Theorem read_total : forall f, numbers_ok f -> exists l, read_giza f = Some l /\ Forall (fun e => length (e_ns e) <= S (wI (e_al e)) /\ wJ (e_al e) = length (e_t e)) l.
Proof. intros f N. unfold read_giza. destruct (open_total f N) as (s & E & OS). rewrite E. now apply read_all_total. Qed.
(** ** the second format *)
Lemma atofq_dec : forall n, exists q, atofq (dec n) = Some q /\ (q == inject_Z (Z.of_nat n))%Q.
Proof.
  intros n. pose proof (dec_shape n) as F. pose proof (dec_ne n) as NE. pose proof (digits_dec_aux (S n) n [] ltac:(lia)) as D. fold (dec n) in D. cbn [digits] in D.
  assert (SG : sign_of (dec n) = (false, dec n)). { destruct (dec n) as [|c r]; [contradiction|]. inversion F as [|? ? (d & Hd & ->) _]. cbn [sign_of]. do 10 (destruct d as [|d]; [reflexivity|]). lia. }
  unfold atofq. rewrite SG. pose proof (split_digits_ok (dec n) [] F I) as SD. rewrite app_nil_r in SD. rewrite SD. cbn [frac_of]. rewrite app_nil_r. destruct (dec n) as [|c r] eqn:E; [contradiction|]. rewrite D. eexists. split; [reflexivity|].
  rewrite Qred_correct. cbn [exponent_of length Z.of_nat Z.sub Z.opp Z.add]. rewrite nat_N_Z. cbn. apply Qmult_1_r.
Qed.
Definition my_lines (e : entry) (reps : nat) : list str :=
  [T "# " ++ dec reps; words_text (e_t e); words_text (e_ns e)] ++ map (row_text (e_al e)) (rev (seq 0 (wI (e_al e)))).
Lemma row_fields : forall m i, flds (row_text m i) = map dec (map (fun j => N.to_nat (wc m i j)) (seq 0 (wJ m))).
Proof.
  intros m i. unfold row_text. rewrite map_map. pose proof (flds_map nat (fun j => dec (N.to_nat (wc m i j))) (seq 0 (wJ m)) [] (fun x => dec_clean _)) as X. rewrite app_nil_r in X. rewrite X. apply app_nil_r.
Qed.
Lemma set_row_ok : forall vs buf pre r m, flds buf = pre ++ map dec vs -> Forall small vs -> exists m', set_row buf r (length pre) (length vs) m = Some m' /\ same_dims m' m /\
  forall i j, inr m i j -> wc m' i j = if (i =? r) && (length pre <=? j) && (j <? length pre + length vs) then N.of_nat (nth (j - length pre) vs 0) else wc m i j.
Proof.
  induction vs as [|v vs IH]; intros buf pre r m E F.
  - exists m. split; [reflexivity|]. split; [split; reflexivity|]. intros i j _. cbn [length]. rewrite Nat.add_0_r. destruct (Nat.leb_spec (length pre) j); destruct (Nat.ltb_spec j (length pre)); try lia; rewrite ?andb_false_r; reflexivity.
  - inversion F as [|? ? SV F']; subst. cbn [length set_row]. rewrite dol, E. cbn [map]. rewrite nth_mid. rewrite atoi_dec by exact SV.
    assert (E' : flds buf = (pre ++ [dec v]) ++ map dec vs) by (rewrite E, <- app_assoc; reflexivity).
    destruct (IH buf _ r (w_setValue m r (length pre) (N.of_nat v)) E' F') as (m' & R & [D1 D2] & C). rewrite app_length in R, C. cbn [length] in R, C. rewrite Nat.add_1_r in R, C.
    assert (DS : same_dims (w_setValue m r (length pre) (N.of_nat v)) m) by (unfold w_setValue; destruct (_ && _); split; reflexivity). destruct DS as [S1 S2].
    exists m'. split; [exact R|]. split; [split; congruence|]. intros i j RI. rewrite C by (unfold inr in *; rewrite S1, S2; exact RI). destruct RI as [Ri Rj].
    destruct (Nat.eqb_spec i r) as [->|NI]; cbn [andb].
    + destruct (Nat.leb_spec (S (length pre)) j) as [A|A]; cbn [andb].
      * replace (S (length pre) + length vs) with (length pre + S (length vs)) by lia. destruct (Nat.leb_spec (length pre) j); [|lia]. cbn [andb]. destruct (Nat.ltb_spec j (length pre + S (length vs))); [replace (j - length pre) with (S (j - S (length pre))) by lia; reflexivity|].
        unfold w_setValue. destruct (_ && _); [|reflexivity]. rewrite wput_c. destruct (Nat.eqb_spec j (length pre)); [lia|]. now rewrite andb_false_r.
      * destruct (Nat.eq_dec j (length pre)) as [->|NJ].
        -- rewrite Nat.leb_refl. cbn [andb]. destruct (Nat.ltb_spec (length pre) (length pre + S (length vs))); [|lia]. rewrite Nat.sub_diag. cbn [nth]. unfold w_setValue. rewrite (proj2 (Nat.ltb_lt _ _) Ri), (proj2 (Nat.ltb_lt _ _) Rj). cbn [andb]. rewrite wput_c, !Nat.eqb_refl. reflexivity.
        -- destruct (Nat.leb_spec (length pre) j); [lia|]. cbn [andb]. unfold w_setValue. destruct (_ && _); [|reflexivity]. rewrite wput_c. destruct (Nat.eqb_spec j (length pre)); [lia|]. now rewrite andb_false_r.
    + unfold w_setValue. destruct (_ && _); [|reflexivity]. rewrite wput_c. destruct (Nat.eqb_spec i r); [contradiction|]. reflexivity.
Qed.
Lemma read_rows_ok : forall n src nt b rest m, wJ src = nt -> wJ m = nt -> wI m = wI src -> n <= wI src -> (forall i j, inr src i j -> small (N.to_nat (wc src i j))) ->
  exists m' b', read_rows n nt (mkstrm b (map (row_text src) (rev (seq 0 n)) ++ rest)) m = Some (true, m', mkstrm b' rest) /\ same_dims m' m /\
    forall i j, inr m i j -> wc m' i j = if i <? n then wc src i j else wc m i j.
Proof.
  induction n as [|n IH]; intros src nt b rest m J1 J2 I1 L B.
  - exists m, b. split; [reflexivity|]. split; [split; reflexivity|]. intros i j _. reflexivity.
  - rewrite seq_S, rev_unit. cbn [Nat.add map app]. cbn [read_rows GizaModel.getln s_rest snd s_buf]. rewrite nfw, row_fields, !map_length, seq_length, J1, Nat.eqb_refl.
    pose proof (set_row_ok (map (fun j => N.to_nat (wc src n j)) (seq 0 (wJ src))) (row_text src n) [] n m (row_fields src n)) as SR. rewrite map_length, seq_length, J1 in SR. cbn [length Nat.add] in SR.
    destruct SR as (m1 & R1 & [D1 D2] & C1). { apply Forall_map, Forall_forall. intros j Hj. apply in_seq in Hj. apply B. split; lia. }
    cbn [length] in R1. rewrite R1. destruct (IH src nt (row_text src n) rest m1 J1 ltac:(lia) ltac:(lia) ltac:(lia) B) as (m' & b' & R' & [E1 E2] & C'). exists m', b'. split; [exact R'|]. split; [split; congruence|].
    intros i j RI. rewrite C' by (unfold inr in *; rewrite D1, D2; exact RI). destruct RI as [Ri Rj]. rewrite C1 by now split.
    destruct (Nat.ltb_spec i n) as [A|A]; destruct (Nat.ltb_spec i (S n)) as [A2|A2]; try lia.
    + assert (i = n) as -> by lia. rewrite Nat.eqb_refl. cbn [andb Nat.leb]. destruct (Nat.ltb_spec j nt); [|lia]. rewrite Nat.sub_0_r. rewrite (nth_indep _ 0 (N.to_nat (wc src n 0))) by (rewrite map_length, seq_length; lia). rewrite (map_nth (fun j => N.to_nat (wc src n j))). rewrite seq_nth by lia. cbn [Nat.add]. apply N2Nat.id.
    + destruct (Nat.eqb_spec i n); [lia|]. reflexivity.
Qed.
Lemma next_my_ok : forall e reps x b rest, my_entry e reps -> exists e' b', nextAlignOp x (mkstrm b (my_lines e reps ++ rest)) = Some (true, e', mkstrm b' rest) /\ same_my (e, reps) e'.
Proof.
  intros e reps x b rest (NE & PN & PT & DI & DJ & B). unfold nextAlignOp, my_lines. cbn [app GizaModel.getln s_rest negb s_buf snd]. rewrite !nfw, !dol.
  assert (H : flds (T "# " ++ dec reps) = [T "#"; dec reps]) by apply header_fields, dec_clean. rewrite H. cbn [length nth Nat.eqb andb]. destruct (str_dec (T "#") (T "#")); [|contradiction].
  destruct (atofq_dec reps) as (q & EQ & VQ). rewrite EQ. rewrite !fields_from_ok by lia. cbn [skipn]. rewrite !flds_words by assumption. destruct (e_ns e) as [|n s] eqn:EN; [contradiction|]. cbn [length] in DI. injection DI as DI.
  destruct (read_rows_ok (wI (e_al e)) (e_al e) (length (e_t e)) (words_text (n :: s)) rest (AligModel.w_init (length s) (length (e_t e))) DJ eq_refl) as (m' & b' & R & [D1 D2] & C); [cbn; lia|lia|exact B|].
  rewrite <- DI in R |- *. rewrite R. do 2 eexists. split; [reflexivity|]. unfold same_my. cbn [fst snd e_ns e_t e_al e_reps]. rewrite EN. repeat split; auto.
  - rewrite D1. cbn. lia. - rewrite D2. cbn. lia.
  - intros i j [Ri Rj]. rewrite C by (split; cbn; lia). now rewrite (proj2 (Nat.ltb_lt _ _) Ri).
Qed.
Definition my_file (l : list (entry * nat)) : str := concat (map (fun p => printMyFormat (e_ns (fst p)) (e_t (fst p)) (e_al (fst p)) (snd p)) l).
Lemma my_file_lines : forall l, Forall (fun p => my_entry (fst p) (snd p)) l -> my_file l = file_of (concat (map (fun p => my_lines (fst p) (snd p)) l)).
Proof.
  induction l as [|[e reps] l IH]; intros F; [reflexivity|]. inversion F as [|? ? (NE & _) F']; subst. unfold my_file. cbn [map concat fst snd]. rewrite file_of_app. fold (my_file l). rewrite IH by exact F'. f_equal.
  unfold printMyFormat, my_lines, file_of, matrix_text. cbn [fst] in NE. destruct (e_ns e) as [|n s]; [contradiction|]. rewrite map_app, concat_app, map_map. cbn [map concat]. rewrite app_nil_r, <- !app_assoc. cbn [app]. rewrite ?app_nil_r, <- ?app_assoc. reflexivity.
Qed.
Lemma my_good : forall e reps, my_entry e reps -> Forall good_line (my_lines e reps).
Proof.
  intros e reps (NE & PN & PT & _). unfold my_lines. apply Forall_app. split.
  - constructor; [apply good_app; [split; cbn; intuition discriminate|apply good_clean, dec_clean]|]. constructor; [now apply good_words|]. constructor; [now apply good_words|constructor].
  - apply Forall_map, Forall_forall. intros i _. apply (good_map nat (fun j => dec (N.to_nat (wc (e_al e) i j)))). intros. apply dec_clean.
Qed.
Theorem my_read_back : forall l, Forall (fun p => my_entry (fst p) (snd p)) l -> exists l', read_alignop (my_file l) = Some l' /\ Forall2 same_my l l'.
Proof.
  intros l F. unfold read_alignop, s_open. rewrite my_file_lines by exact F. rewrite read_lines_ok.
  2:{ clear - F. induction F as [|p l W F IH]; [constructor|]. cbn [map concat]. apply Forall_app. split; [now apply my_good|exact IH]. }
  cbn [s_rest]. assert (G : forall l fuel x b, Forall (fun p => my_entry (fst p) (snd p)) l -> length l < fuel -> exists l', read_all_op fuel x (mkstrm b (concat (map (fun p => my_lines (fst p) (snd p)) l))) = Some l' /\ Forall2 same_my l l').
  { clear. induction l as [|[e reps] l IH]; intros fuel x b F H; (destruct fuel as [|f]; [cbn [length] in H; lia|]); cbn [read_all_op]; [exists []; split; [reflexivity|constructor]|]. inversion F as [|? ? W F']; subst. cbn [map concat fst snd].
    destruct (next_my_ok e reps x b (concat (map (fun p => my_lines (fst p) (snd p)) l)) W) as (e' & b' & E & SM). rewrite E. destruct (IH f e' b' F' ltac:(cbn [length] in H; lia)) as (l' & EL & F2). rewrite EL. exists (e' :: l'). split; [reflexivity|now constructor]. }
  apply G; [exact F|]. clear. induction l as [|p l IH]; cbn [map concat length]; [lia|]. rewrite app_length. unfold my_lines at 1. rewrite app_length. cbn [length]. lia.
Qed.
