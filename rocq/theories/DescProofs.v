(** Proofs about model descriptors, word-graph handler files and segmentation-length tables. *)
From Coq Require Import Ascii String Arith NArith ZArith QArith List Bool Lia Sorted.
From Verif Require Import TextSpec TextModel TextProofs VocabSpec VocabModel VocabProofs GfmtModel PmText WgfText GfmtText DescSpec DescModel.
Import ListNotations.
Local Open Scope nat_scope.

Lemma NFv_flds : forall l, NFv l = length (flds l).
Proof. intros l. unfold NFv. now rewrite (get_NF_words SP l). Qed.
Lemma fld_S : forall l k, fld l (S k) = nth k (flds l) [].
Proof. intros l k. unfold fld. now rewrite (dollar_words SP l k). Qed.
Lemma isw_true : forall a b, isw a b = true <-> a = b.
Proof. intros a b. unfold isw. destruct (str_dec a b); split; congruence. Qed.
Lemma isw_refl : forall a, isw a a = true. Proof. intros a. now apply isw_true. Qed.
Lemma isw_false : forall a b, isw a b = false <-> a <> b.
Proof. intros a b. unfold isw. destruct (str_dec a b); split; congruence. Qed.

(** ** directories *)
Lemma last_slash_none : forall s i last, ~ In slash s -> last_slash s i last = last.
Proof.
  induction s as [|c s IH]; intros i last H; cbn [last_slash]; [reflexivity|]. destruct (Ascii.eqb_spec c SL) as [->|N]; [exfalso; apply H; now left|].
  apply IH. intro X. apply H. now right.
Qed.
Lemma last_slash_some : forall d b i last, ~ In slash b -> last_slash (d ++ slash :: b) i last = Some (i + length d).
Proof.
  induction d as [|c d IH]; intros b i last H.
  - cbn [app last_slash]. change (Ascii.eqb slash SL) with true. cbn iota. rewrite last_slash_none by exact H. f_equal. simpl. lia.
  - cbn [app last_slash length]. rewrite IH by exact H. f_equal. lia.
Qed.
Lemma dir_none : forall p, ~ In slash p -> extractDirName p = [].
Proof. intros p H. unfold extractDirName. destruct p; [reflexivity|]. now rewrite last_slash_none. Qed.
Lemma dir_some : forall d b, ~ In slash b -> extractDirName (d ++ slash :: b) = d ++ [slash].
Proof.
  intros d b H. unfold extractDirName. destruct (d ++ slash :: b) eqn:E; [destruct d; discriminate|]. rewrite <- E. rewrite last_slash_some by exact H.
  replace (S (0 + length d)) with (length (d ++ [slash])) by (rewrite app_length; simpl; lia).
  replace (d ++ slash :: b) with ((d ++ [slash]) ++ b) by (rewrite <- app_assoc; reflexivity). rewrite firstn_app, Nat.sub_diag, firstn_all. apply app_nil_r.
Qed.
Lemma expand_hit : forall var dir x, expandLib var dir (var ++ x) = dir ++ x.
Proof.
  intros var dir x. unfold expandLib. rewrite app_length. destruct (Nat.ltb_spec (length var + length x) (length var)); [lia|].
  rewrite firstn_app, Nat.sub_diag, firstn_all, app_nil_r, isw_refl. now rewrite skipn_app, Nat.sub_diag, skipn_all.
Qed.
Lemma expand_miss : forall var dir s, ~ (exists x, s = var ++ x) -> expandLib var dir s = s.
Proof.
  intros var dir s H. unfold expandLib. destruct (Nat.ltb_spec (length s) (length var)); [reflexivity|].
  destruct (isw var (firstn (length var) s)) eqn:E; [|reflexivity]. apply isw_true in E. exfalso. apply H. exists (skipn (length var) s).
  rewrite E at 1. symmetry. apply firstn_skipn.
Qed.

(** ** reading an entry *)
Lemma entry_len_nohash : forall n i NF l, (forall k, i <= k < i + n -> fld l k <> T "#") -> entry_len n i NF l = NF.
Proof.
  induction n as [|n IH]; intros i NF l H; cbn [entry_len]; [reflexivity|]. destruct (isw (fld l i) (T "#")) eqn:E; [apply isw_true in E; exfalso; apply (H i); [lia|exact E]|].
  apply IH. intros k Hk. apply H. lia.
Qed.
Lemma entry_len_hash : forall m n i NF l, m < n -> (forall k, i <= k < i + m -> fld l k <> T "#") -> fld l (i + m) = T "#" -> entry_len n i NF l = i + m - 1.
Proof.
  induction m as [|m IH]; intros n i NF l H A B; destruct n as [|n]; try lia; cbn [entry_len].
  - rewrite Nat.add_0_r in B. rewrite B, isw_refl. lia.
  - destruct (isw (fld l i) (T "#")) eqn:E; [apply isw_true in E; exfalso; apply (A i); [lia|exact E]|]. rewrite (IH n (S i) NF l); [lia|lia| |].
    + intros k Hk. apply A. lia.
    + replace (S i + m) with (i + S m) by lia. exact B.
Qed.
Lemma init_loop_ok : forall var dir ws pre rest el l acc, flds l = pre ++ ws ++ rest -> el = length pre + length ws + 2 ->
  init_loop var dir (length ws) (S (length pre)) el l acc = acc ++ spaced (map (expandLib var dir) ws).
Proof.
  intros var dir. induction ws as [|w ws IH]; intros pre rest el l acc E EL; cbn [length init_loop map spaced]; [symmetry; apply app_nil_r|].
  assert (X : fld l (S (length pre)) = w). { rewrite fld_S, E, app_nth2, Nat.sub_diag by lia. reflexivity. }
  rewrite X. clear X.
  assert (E2 : flds l = (pre ++ [w]) ++ ws ++ rest) by (rewrite E, <- app_assoc; reflexivity).
  specialize (IH (pre ++ [w]) rest el l). rewrite app_length in IH. cbn [length] in IH, EL. replace (length pre + 1) with (S (length pre)) in IH by lia.
  destruct ws as [|w2 ws].
  - cbn [length] in *. replace (el - 2) with (S (length pre)) by lia. rewrite Nat.eqb_refl. cbn [map spaced init_loop]. reflexivity.
  - cbn [length] in EL. destruct (Nat.eqb_spec (S (length pre)) (el - 2)) as [B|_]; [lia|].
    rewrite (IH _ E2) by (cbn [length]; lia). change (map (expandLib var dir) (w2 :: ws)) with (expandLib var dir w2 :: map (expandLib var dir) ws).
    change (spaced (expandLib var dir w :: map (expandLib var dir) (w2 :: ws))) with (expandLib var dir w ++ blank_ch :: spaced (map (expandLib var dir) (w2 :: ws))).
    rewrite <- !app_assoc. reflexivity.
Qed.
(** a line whose words before the first # are init ++ [file; status] *)
Lemma read_entry_ok : forall var dir fn l init file status rest,
  flds l = (init ++ [file; status]) ++ rest -> ~ In (T "#") (init ++ [file; status]) -> (init = [] -> rest <> []) ->
  (rest = [] \/ exists r, rest = T "#" :: r) ->
  read_entry var dir fn l = Some (mkme (spaced (map (expandLib var dir) init)) file status (absolutize fn file)).
Proof.
  intros var dir fn l init file status rest E NI NE R. unfold read_entry.
  assert (N : forall k, k < length (init ++ [file; status]) -> fld l (S k) <> T "#").
  { intros k Hk H. rewrite fld_S, E, app_nth1 in H by exact Hk. apply NI. rewrite <- H. now apply nth_In. }
  destruct (isw (fld l 1) (T "#")) eqn:E1; [apply isw_true in E1; exfalso; apply (N 0); [rewrite app_length; simpl; lia|exact E1]|].
  rewrite NFv_flds. assert (LE : length (flds l) = length init + 2 + length rest) by (rewrite E, !app_length; simpl; lia).
  assert (L3 : (3 <=? length (flds l)) = true).
  { apply Nat.leb_le. destruct init; [|simpl in LE; lia]. specialize (NE eq_refl). destruct rest; [contradiction|]. simpl in LE. lia. }
  rewrite L3.
  assert (EL : entry_len (length (flds l)) 1 (length (flds l)) l = length init + 2).
  { destruct R as [->|[r ->]].
    - rewrite entry_len_nohash; [rewrite LE; simpl; lia|]. intros k Hk. destruct k as [|k]; [lia|]. apply N. rewrite app_length. cbn [length] in *. lia.
    - rewrite (entry_len_hash (length init + 2)); [lia|rewrite LE; simpl; lia| |].
      + intros k Hk. destruct k as [|k]; [lia|]. apply N. rewrite app_length. cbn [length]. lia.
      + cbn [Nat.add]. rewrite fld_S, E, app_nth2 by (rewrite app_length; simpl; lia). rewrite app_length. cbn [length]. now rewrite Nat.sub_diag. }
  rewrite EL. replace (length init + 2 - 2) with (length init) by lia.
  pose proof (init_loop_ok var dir init [] ([file; status] ++ rest) (length init + 2) l []) as X. cbn [length app] in X. rewrite X; [|rewrite E, <- app_assoc; reflexivity|lia].
  replace (length init + 2 - 1) with (S (length init)) by lia. replace (length init + 2) with (S (S (length init))) by lia. rewrite !fld_S, E, <- app_assoc.
  rewrite (app_nth2 init) by lia. rewrite (app_nth2 init) by lia. rewrite Nat.sub_diag. replace (S (length init) - length init) with 1 by lia. reflexivity.
Qed.
(** a comment line, or one with fewer than three words, is skipped *)
Lemma read_entry_skip : forall var dir fn l, (exists r, flds l = T "#" :: r) \/ length (flds l) < 3 -> read_entry var dir fn l = None.
Proof.
  intros var dir fn l [[r H]|H]; unfold read_entry.
  - rewrite fld_S, H. cbn [nth]. now rewrite isw_refl.
  - destruct (isw _ _); [reflexivity|]. rewrite NFv_flds. destruct (Nat.leb_spec 3 (length (flds l))); [lia|reflexivity].
Qed.

(** ** descriptors as files *)
Lemma flds_spaced : forall ws r, Forall tok ws -> ws <> [] -> (match r with [] => True | c :: _ => c = SP end) -> flds (spaced ws ++ r) = ws ++ flds r.
Proof.
  induction ws as [|w ws IH]; intros r F NE R; [contradiction|]. inversion F as [|? ? P F']; subst. cbn [spaced]. destruct ws as [|w' ws]; [cbn [app]; now apply flds_clean|].
  rewrite <- app_assoc. cbn [app]. rewrite flds_clean_sp by exact P. rewrite (IH r F') by (try discriminate; exact R). reflexivity.
Qed.
Lemma spaced_snoc : forall ws a b, ws <> [] -> spaced (ws ++ [a; b]) = spaced ws ++ [SP] ++ a ++ [SP] ++ b.
Proof.
  induction ws as [|w ws IH]; intros a b NE; [contradiction|]. destruct ws as [|w' ws]; [reflexivity|].
  change ((w :: w' :: ws) ++ [a; b]) with (w :: ((w' :: ws) ++ [a; b])). change (spaced (w :: (w' :: ws) ++ [a; b])) with (w ++ blank_ch :: spaced ((w' :: ws) ++ [a; b])).
  rewrite IH by discriminate. change (spaced (w :: w' :: ws)) with (w ++ blank_ch :: spaced (w' :: ws)). rewrite <- app_assoc. reflexivity.
Qed.
Lemma spaced_good : forall ws, Forall tok ws -> good_line (spaced ws).
Proof.
  induction ws as [|w ws IH]; intros F; [split; intros []|]. inversion F as [|? ? P F']; subst. destruct (IH F') as [A B]. destruct P as (_ & _ & C & D). cbn [spaced].
  destruct ws as [|w' ws]; [split; assumption|]. split; intro H; apply in_app_or in H; destruct H as [H|[H|H]]; auto; discriminate.
Qed.
Lemma flds_dwords : forall e, dentry_ok e -> flds (spaced (dwords e)) = dwords e.
Proof. intros e (NE & F & _). pose proof (flds_spaced (dwords e) [] F ltac:(unfold dwords; destruct (d_init e); discriminate) Logic.I) as X. rewrite app_nil_r in X. rewrite X. apply app_nil_r. Qed.
Definition mentry_of (e : dentry) (m : mentry) : Prop := me_init m = spaced (d_init e) /\ me_file m = d_file e /\ me_status m = d_status e.
Lemma print_lines : forall es ms, Forall2 mentry_of es ms -> Forall dentry_ok es ->
  printModelDescriptor ms = file_of (T "thot tm descriptor" :: map (fun e => spaced (dwords e)) es).
Proof.
  intros es ms H F. unfold printModelDescriptor, file_of. cbn [map concat]. rewrite <- app_assoc. f_equal. cbn [app]. f_equal.
  induction H as [|e m es ms (A & B & C) H IH]; [reflexivity|]. inversion F as [|? ? P F']; subst. cbn [map concat]. rewrite (IH F'). f_equal.
  destruct P as (NE & _). unfold dwords. rewrite spaced_snoc by exact NE. rewrite A, B, C, <- !app_assoc. reflexivity.
Qed.
Lemma desc_lines : forall es ms, Forall2 mentry_of es ms -> Forall dentry_ok es -> file_lines (printModelDescriptor ms) = T "thot tm descriptor" :: map (fun e => spaced (dwords e)) es.
Proof.
  intros es ms H F. rewrite (print_lines es ms H F). unfold file_lines. rewrite read_lines_ok; [reflexivity|]. constructor.
  - split; cbn; intuition discriminate.
  - apply Forall_forall. intros l Hl. apply in_map_iff in Hl. destruct Hl as (e & <- & He). apply spaced_good. rewrite Forall_forall in F. apply (F e He).
Qed.
Lemma head_ok : desc_head (T "thot tm descriptor") = true. Proof. reflexivity. Qed.
Lemma read_entries_fold : forall var dir fn es v, Forall dentry_ok es ->
  read_entries var dir fn (map (fun e => spaced (dwords e)) es) v = v ++ map (fun e => mkme (spaced (map (expandLib var dir) (d_init e))) (d_file e) (d_status e) (absolutize fn (d_file e))) es.
Proof.
  intros var dir fn. induction es as [|e es IH]; intros v F; cbn [map read_entries]; [symmetry; apply app_nil_r|]. inversion F as [|? ? P F']; subst.
  assert (X : read_entry var dir fn (spaced (dwords e)) = Some (mkme (spaced (map (expandLib var dir) (d_init e))) (d_file e) (d_status e) (absolutize fn (d_file e)))).
  { apply read_entry_ok with (rest := []); [rewrite app_nil_r; now apply flds_dwords|apply P| |now left]. intros E. destruct P as (NE & _). contradiction. }
  rewrite X. rewrite IH by exact F'. rewrite <- app_assoc. reflexivity.
Qed.
Theorem desc_round_trip : forall var dir fn es ms v, Forall2 mentry_of es ms -> Forall dentry_ok es ->
  extractModelEntryInfo var dir fn (Some (printModelDescriptor ms)) v =
  Some (v ++ map (fun e => mkme (spaced (map (expandLib var dir) (d_init e))) (d_file e) (d_status e) (absolutize fn (d_file e))) es).
Proof.
  intros var dir fn es ms v H F. unfold extractModelEntryInfo, fileIsDescriptor. rewrite (desc_lines es ms H F). rewrite head_ok. f_equal. now apply read_entries_fold.
Qed.
Theorem main_round_trip : forall es ms m0, Forall2 mentry_of es ms -> Forall dentry_ok es -> (forall e, In e es -> length (d_init e) = 1 /\ d_file e <> T "main") ->
  exists f, fileIsDescriptorMain (Some (printModelDescriptor ms)) m0 = (true, f) /\
  ((forall e, In e es -> d_status e <> T "main") /\ f = [] \/ exists a e b, es = a ++ e :: b /\ (forall x, In x a -> d_status x <> T "main") /\ d_status e = T "main" /\ f = d_file e).
Proof.
  intros es ms m0 H F G. unfold fileIsDescriptorMain. rewrite (desc_lines es ms H F), head_ok. eexists. split; [reflexivity|]. clear H.
  induction es as [|e es IH]; cbn [map main_loop]; [left; split; [intros e []|reflexivity]|]. inversion F as [|? ? P F']; subst.
  destruct (G e (or_introl eq_refl)) as [G1 G2]. pose proof (flds_dwords e P) as FL. destruct (d_init e) as [|w [|w2 ws]] eqn:EI; try discriminate.
  unfold dwords in FL. rewrite EI in FL. cbn [app] in FL. unfold dwords. rewrite EI. cbn [app].
  rewrite NFv_flds, !fld_S, FL. cbn [length nth]. change (3 <=? 3) with true. cbn [andb].
  destruct (isw (d_status e) (T "main")) eqn:E1.
  - apply isw_true in E1. right. exists [], e, es. cbn [app]. split; [reflexivity|]. split; [intros x []|]. split; auto.
  - apply isw_false in E1. destruct (isw (d_file e) (T "main")) eqn:E2; [apply isw_true in E2; contradiction|].
    destruct (IH F' (fun x Hx => G x (or_intror Hx))) as [(A & B)|(a & x & b & A & B & C & D)].
    + left. split; [intros x [<-|Hx]; auto|exact B].
    + right. exists (e :: a), x, b. rewrite A. cbn [app]. split; [reflexivity|]. split; [intros y [<-|Hy]; auto|]. split; [exact C|]. rewrite <- A. exact D.
Qed.

(** ** word-graph handler files *)
Section LEX.
Context {A : Type}.
Variable R : A -> A -> Prop.
Variable lt : A -> A -> bool.
Hypothesis ltR : forall a b, lt a b = true <-> R a b.
Hypothesis Rirr : forall a, ~ R a a.
Hypothesis Rtr : forall a b c, R a b -> R b c -> R a c.
Hypothesis Rtot : forall a b, R a b \/ a = b \/ R b a.
Lemma lexb_dict : forall a b, lexb lt a b = true <-> dict_lt R a b.
Proof.
  assert (CS : forall x y a b, dict_lt R (x :: a) (y :: b) <-> R x y \/ x = y /\ dict_lt R a b).
  { intros x y a b. split.
    - intros [(c & r & E)|(p & u & v & r & s & E1 & E2 & H)].
      + simpl in E. injection E as -> ->. right. split; [reflexivity|]. left. now exists c, r.
      + destruct p as [|p0 p]; simpl in E1, E2; injection E1 as -> ->; injection E2 as -> ->; [now left|]. right. split; [reflexivity|]. right. now exists p, u, v, r, s.
    - intros [H|[-> [(c & r & ->)|(p & u & v & r & s & -> & -> & H)]]].
      + right. now exists [], x, y, a, b.
      + left. now exists c, r.
      + right. now exists (y :: p), u, v, r, s. }
  induction a as [|x a IH]; intros [|y b]; cbn [lexb].
  - split; [discriminate|]. intros [(c & r & E)|(p & u & v & r & s & E & _)]; [discriminate|destruct p; discriminate].
  - split; [intros _; left; now exists y, b|reflexivity].
  - split; [discriminate|]. intros [(c & r & E)|(p & u & v & r & s & _ & E & _)]; [discriminate|destruct p; discriminate].
  - rewrite CS. destruct (lt x y) eqn:E; [split; auto; intros _; left; now apply ltR|].
    assert (N : ~ R x y) by (rewrite <- ltR, E; discriminate). destruct (lt y x) eqn:E2.
    + apply ltR in E2. split; [discriminate|]. intros [H|[-> _]]; [contradiction|destruct (Rirr _ E2)].
    + assert (N2 : ~ R y x) by (rewrite <- ltR, E2; discriminate). destruct (Rtot x y) as [H|[->|H]]; try contradiction. rewrite IH. split; [auto|]. intros [H|[_ H]]; [destruct (Rirr _ H)|exact H].
Qed.
Lemma dict_irr : forall a, ~ dict_lt R a a.
Proof.
  intros a [(c & r & E)|(p & u & v & r & s & E1 & E2 & H)].
  - apply (f_equal (@length A)) in E. rewrite app_length in E. simpl in E. lia.
  - rewrite E1 in E2. apply app_inv_head in E2. injection E2 as -> _. destruct (Rirr _ H).
Qed.
Lemma lexb_irr : forall a, lexb lt a a = false.
Proof. intros a. destruct (lexb lt a a) eqn:E; [|reflexivity]. apply lexb_dict in E. destruct (dict_irr _ E). Qed.
Lemma lexb_tr : forall a b c, lexb lt a b = true -> lexb lt b c = true -> lexb lt a c = true.
Proof.
  induction a as [|x a IH]; intros [|y b] [|z c]; cbn [lexb]; try discriminate; try reflexivity.
  assert (AS : forall u v, lt u v = true -> lt v u = false). { intros u v H. destruct (lt v u) eqn:E; [|reflexivity]. apply ltR in H, E. destruct (Rirr u). eapply Rtr; eassumption. }
  assert (EQ : forall u v, lt u v = false -> lt v u = false -> u = v). { intros u v H1 H2. destruct (Rtot u v) as [H|[H|H]]; [apply ltR in H; congruence|exact H|apply ltR in H; congruence]. }
  destruct (lt x y) eqn:E1.
  - intros _. destruct (lt y z) eqn:E2.
    + intros _. assert (X : lt x z = true) by (apply ltR; apply ltR in E1, E2; eapply Rtr; eassumption). now rewrite X.
    + destruct (lt z y) eqn:E3; [discriminate|]. rewrite (EQ y z E2 E3) in E1. now rewrite E1.
  - destruct (lt y x) eqn:E2; [discriminate|]. rewrite (EQ x y E1 E2). intros H. destruct (lt y z); [reflexivity|]. destruct (lt z y); [discriminate|]. now apply IH.
Qed.
Lemma lexb_tot : forall a b, lexb lt a b = true \/ a = b \/ lexb lt b a = true.
Proof.
  induction a as [|x a IH]; intros [|y b]; cbn [lexb]; auto. destruct (Rtot x y) as [H|[->|H]].
  - apply ltR in H. rewrite H. auto.
  - assert (X : lt y y = false) by (destruct (lt y y) eqn:E; [apply ltR in E; destruct (Rirr _ E)|reflexivity]). rewrite X. destruct (IH b) as [H|[->|H]]; auto.
  - apply ltR in H. rewrite H. auto.
Qed.
End LEX.
Lemma char_ltR : forall a b, (nat_of_ascii a <? nat_of_ascii b) = true <-> char_lt a b.
Proof. intros a b. unfold char_lt. apply Nat.ltb_lt. Qed.
Lemma char_tot : forall a b, char_lt a b \/ a = b \/ char_lt b a.
Proof.
  intros a b. unfold char_lt. destruct (Nat.lt_trichotomy (nat_of_ascii a) (nat_of_ascii b)) as [H|[H|H]]; auto. right. left.
  rewrite <- (ascii_nat_embedding a), <- (ascii_nat_embedding b). now rewrite H.
Qed.
Definition SR a b := dict_lt char_lt a b.
Lemma str_ltR : forall a b, str_lt a b = true <-> SR a b.
Proof. intros a b. unfold SR. apply lexb_dict; [exact char_ltR|unfold char_lt; intros; lia|exact char_tot]. Qed.
Lemma SR_irr : forall a, ~ SR a a. Proof. intros a. apply dict_irr. unfold char_lt. intros; lia. Qed.
Lemma SR_tot : forall a b, SR a b \/ a = b \/ SR b a.
Proof. intros a b. rewrite <- !str_ltR. apply (lexb_tot char_lt); [exact char_ltR|unfold char_lt; intros; lia|exact char_tot]. Qed.
Lemma SR_tr : forall a b c, SR a b -> SR b c -> SR a c.
Proof. intros a b c. rewrite <- !str_ltR. apply (lexb_tr char_lt); [exact char_ltR|unfold char_lt; intros; lia|unfold char_lt; intros; lia|exact char_tot]. Qed.
Lemma sent_ltR : forall a b, sent_ltb a b = true <-> sent_lt a b.
Proof. intros a b. apply lexb_dict; [exact str_ltR|exact SR_irr|exact SR_tot]. Qed.
Lemma sl_irr : forall a, sent_ltb a a = false. Proof. apply (lexb_irr SR); [exact str_ltR|exact SR_irr|exact SR_tot]. Qed.
Lemma sl_tr : forall a b c, sent_ltb a b = true -> sent_ltb b c = true -> sent_ltb a c = true. Proof. apply (lexb_tr SR); [exact str_ltR|exact SR_irr|exact SR_tr|exact SR_tot]. Qed.
Lemma sl_tot : forall a b, sent_ltb a b = true \/ a = b \/ sent_ltb b a = true. Proof. apply (lexb_tot SR); [exact str_ltR|exact SR_irr|exact SR_tot]. Qed.
Lemma sl_as : forall a b, sent_ltb a b = true -> sent_ltb b a = false.
Proof. intros a b H. destruct (sent_ltb b a) eqn:E; [|reflexivity]. pose proof (sl_tr _ _ _ H E) as X. rewrite sl_irr in X. discriminate. Qed.

Definition wg_sorted (m : wgmap) : Prop := StronglySorted sent_lt (map fst m).
Lemma wg_put_in : forall k v m x, In x (map fst (wg_put k v m)) <-> x = k \/ In x (map fst m).
Proof.
  intros k v. induction m as [|[k' v'] m IH]; intros x; cbn [wg_put map fst In]; [intuition congruence|].
  destruct (sent_ltb k k') eqn:E1; [cbn [map fst In]; intuition congruence|]. destruct (sent_ltb k' k) eqn:E2; cbn [map fst In]; [rewrite IH; intuition congruence|].
  destruct (sl_tot k k') as [H|[->|H]]; try congruence. intuition congruence.
Qed.
Lemma wg_put_sorted : forall k v m, wg_sorted m -> wg_sorted (wg_put k v m).
Proof.
  unfold wg_sorted. intros k v. induction m as [|[k' v'] m IH]; intros H; cbn [wg_put map fst]; [constructor; constructor|]. cbn [map fst] in H. apply StronglySorted_inv in H. destruct H as [H F].
  destruct (sent_ltb k k') eqn:E1.
  - cbn [map fst]. constructor; [constructor; assumption|]. apply sent_ltR in E1. constructor; [exact E1|]. rewrite Forall_forall in F |- *. intros x Hx. apply sent_ltR. apply (sl_tr _ k'); apply sent_ltR; auto.
  - destruct (sent_ltb k' k) eqn:E2; cbn [map fst].
    + constructor; [apply IH; exact H|]. rewrite Forall_forall in F |- *. intros x Hx. apply wg_put_in in Hx. destruct Hx as [->|Hx]; [now apply sent_ltR|auto].
    + destruct (sl_tot k k') as [X|[->|X]]; try congruence. constructor; assumption.
Qed.
Lemma wg_find_put : forall k v m x, wg_find (wg_put k v m) x = if list_eq_dec str_dec x k then Some v else wg_find m x.
Proof.
  intros k v. induction m as [|[k' v'] m IH]; intros x; cbn [wg_put wg_find]; [reflexivity|].
  destruct (sent_ltb k k') eqn:E1; [reflexivity|]. destruct (sent_ltb k' k) eqn:E2; cbn [wg_find].
  - rewrite IH. destruct (list_eq_dec str_dec x k') as [->|N]; [|reflexivity]. destruct (list_eq_dec str_dec k' k) as [->|_]; [rewrite sl_irr in E2; discriminate|reflexivity].
  - destruct (sl_tot k k') as [X|[->|X]]; try congruence. destruct (list_eq_dec str_dec x k'); reflexivity.
Qed.
Lemma last_in : forall (l : list str), l <> [] -> In (last l []) l.
Proof. induction l as [|a l IH]; intros H; [contradiction|]. destruct l as [|b l]; [now left|]. right. apply IH. discriminate. Qed.
(** the definitions in a file *)
Definition wg_defs (f : str) : list (list str * str) :=
  flat_map (fun l => let ws := flds l in if 3 <=? length ws then [(firstn (length ws - 2) ws, last ws [])] else []) (file_lines f).
Lemma last_nth : forall (l : list str), l <> [] -> nth (length l - 1) l [] = last l [].
Proof.
  induction l as [|a l IH]; intros H; [contradiction|]. destruct l as [|b l]; [reflexivity|]. change (last (a :: b :: l) []) with (last (b :: l) []). rewrite <- IH by discriminate. cbn [length]. now replace (S (S (length l)) - 1) with (S (S (length l) - 1)) by lia.
Qed.
Lemma map_fld : forall n l, n <= length (flds l) -> map (fld l) (seq 1 n) = firstn n (flds l).
Proof.
  intros n l. rewrite <- seq_shift, map_map. rewrite (map_ext _ (fun k => nth k (flds l) []) (fld_S l)). generalize (flds l). clear l.
  assert (G : forall n (ws pre : list str), n <= length ws -> map (fun k => nth k (pre ++ ws) []) (seq (length pre) n) = firstn n ws).
  { clear n. induction n as [|n IH]; intros ws pre H; [reflexivity|]. destruct ws as [|w ws]; [simpl in H; lia|]. cbn [seq map firstn]. rewrite app_nth2, Nat.sub_diag by lia. cbn [nth]. f_equal.
    specialize (IH ws (pre ++ [w])). rewrite <- app_assoc in IH. cbn [app] in IH. rewrite app_length in IH. cbn [length] in IH. rewrite Nat.add_1_r in IH. apply IH. simpl in H. lia. }
  intros ws H. apply (G n ws [] H).
Qed.
Lemma wg_line_ok : forall l m, wg_line l m = fold_left (fun m p => wg_put (fst p) (snd p) m) (let ws := flds l in if 3 <=? length ws then [(firstn (length ws - 2) ws, last ws [])] else []) m.
Proof.
  intros l m. unfold wg_line. rewrite NFv_flds. cbn zeta. destruct (Nat.leb_spec 3 (length (flds l))) as [H|H]; [|reflexivity]. cbn [fold_left fst snd]. rewrite map_fld by lia.
  f_equal. replace (length (flds l)) with (S (length (flds l) - 1)) at 1 by lia. rewrite fld_S. apply last_nth. intro E. rewrite E in H. simpl in H. lia.
Qed.
Lemma wg_fold : forall ls m, fold_left (fun m l => wg_line l m) ls m =
  fold_left (fun m p => wg_put (fst p) (snd p) m) (flat_map (fun l => let ws := flds l in if 3 <=? length ws then [(firstn (length ws - 2) ws, last ws [])] else []) ls) m.
Proof. induction ls as [|l ls IH]; intros m; cbn [fold_left flat_map]; [reflexivity|]. rewrite fold_left_app, <- wg_line_ok. apply IH. Qed.
Theorem wg_load_defs : forall f m, wg_load (Some f) m = (true, fold_left (fun m p => wg_put (fst p) (snd p) m) (wg_defs f) []).
Proof. intros f m. unfold wg_load. now rewrite wg_fold. Qed.
Lemma fold_find : forall ds m k, last_def k ds (wg_find (fold_left (fun m p => wg_put (fst p) (snd p) m) ds m) k) \/
  (~ In k (map fst ds) /\ wg_find (fold_left (fun m p => wg_put (fst p) (snd p) m) ds m) k = wg_find m k).
Proof.
  intros ds m k. induction ds as [|[k' v'] ds IH] using rev_ind; [right; split; [intros []|reflexivity]|].
  rewrite fold_left_app. cbn [fold_left fst snd]. rewrite wg_find_put. destruct (list_eq_dec str_dec k k') as [->|N].
  - left. apply (ld_some k' ds [] v'). intros [].
  - destruct IH as [H|[H1 H2]].
    + left. inversion H as [l NI E1 E2|a b v NI E1 E2].
      * constructor. rewrite map_app, in_app_iff. cbn. intuition congruence.
      * rewrite <- app_assoc. cbn [app]. apply ld_some. rewrite map_app, in_app_iff. cbn. intuition congruence.
    + right. split; [|exact H2]. rewrite map_app, in_app_iff. cbn. intuition congruence.
Qed.
Theorem wg_load_find : forall f m k, last_def k (wg_defs f) (wg_find (snd (wg_load (Some f) m)) k).
Proof.
  intros f m k. rewrite wg_load_defs. cbn [snd]. destruct (fold_find (wg_defs f) [] k) as [H|[H1 H2]]; [exact H|]. rewrite H2. now constructor.
Qed.
Lemma fold_sorted : forall ds m, wg_sorted m -> wg_sorted (fold_left (fun m p => wg_put (fst p) (snd p) m) ds m).
Proof. induction ds as [|d ds IH]; intros m H; cbn [fold_left]; [exact H|]. apply IH. now apply wg_put_sorted. Qed.
Theorem wg_load_sorted : forall f m, wg_sorted (snd (wg_load (Some f) m)).
Proof. intros f m. rewrite wg_load_defs. apply fold_sorted. constructor. Qed.
Lemma put_end : forall k v m, Forall (fun x => sent_lt x k) (map fst m) -> wg_put k v m = m ++ [(k, v)].
Proof.
  intros k v. induction m as [|[k' v'] m IH]; intros F; [reflexivity|]. inversion F as [|? ? H F']; subst. cbn [wg_put]. cbn [fst] in H. apply sent_ltR in H. rewrite (sl_as _ _ H), H. cbn [app]. now rewrite IH.
Qed.
Lemma fold_put_sorted : forall ds m, wg_sorted (m ++ ds) -> fold_left (fun m p => wg_put (fst p) (snd p) m) ds m = m ++ ds.
Proof.
  induction ds as [|[k v] ds IH]; intros m H; cbn [fold_left fst snd]; [symmetry; apply app_nil_r|]. rewrite put_end.
  - rewrite IH; rewrite <- app_assoc; [reflexivity|exact H].
  - unfold wg_sorted in H. rewrite map_app in H. clear IH. induction m as [|p m IHm]; [constructor|]. cbn [map app] in H. apply StronglySorted_inv in H. destruct H as [H F]. cbn [map]. constructor; [|now apply IHm].
    rewrite Forall_forall in F. apply F. apply in_or_app. right. cbn. now left.
Qed.
Definition wg_good (m : wgmap) : Prop := Forall (fun p => fst p <> [] /\ Forall tok (fst p) /\ tok (snd p)) m.
Definition wg_text (p : list str * str) : str := concat (map (fun w => w ++ [SP]) (fst p)) ++ T "||| " ++ snd p.
Lemma concat_flds : forall ws r, Forall tok ws -> flds (concat (map (fun w => w ++ [SP]) ws) ++ r) = ws ++ flds r.
Proof. induction ws as [|w ws IH]; intros r F; [reflexivity|]. inversion F as [|? ? P F']; subst. cbn [map concat]. rewrite <- !app_assoc. cbn [app]. rewrite flds_clean_sp by exact P. now rewrite IH. Qed.
Lemma concat_good : forall ws r, Forall tok ws -> good_line r -> good_line (concat (map (fun w => w ++ [SP]) ws) ++ r).
Proof.
  induction ws as [|w ws IH]; intros r F G; [exact G|]. inversion F as [|? ? P F']; subst. cbn [map concat]. rewrite <- !app_assoc. destruct (IH r F' G) as [A B]. destruct P as (_ & _ & C & D).
  split; intro H; apply in_app_or in H; destruct H as [H|[H|H]]; auto; discriminate.
Qed.
Lemma wg_text_flds : forall ws i, Forall tok ws -> tok i -> flds (wg_text (ws, i)) = ws ++ [T "|||"; i].
Proof.
  intros ws i F P. unfold wg_text. cbn [fst snd]. rewrite concat_flds by exact F. f_equal. change (T "||| " ++ i) with (T "|||" ++ SP :: i). rewrite flds_clean_sp by (repeat split; [discriminate|..]; cbn; intuition discriminate). f_equal. now apply flds_one.
Qed.
Theorem wg_round_trip : forall m m0, wg_sorted m -> wg_good m -> wg_load (Some (wg_print m)) m0 = (true, m).
Proof.
  intros m m0 HS HG. assert (E : wg_print m = file_of (map wg_text m)).
  { unfold wg_print, file_of. rewrite map_map. f_equal. apply map_ext. intros p. unfold wg_text. rewrite <- !app_assoc. reflexivity. }
  assert (L : file_lines (wg_print m) = map wg_text m).
  { rewrite E. unfold file_lines. rewrite read_lines_ok; [reflexivity|]. apply Forall_forall. intros l Hl. apply in_map_iff in Hl. destruct Hl as ([ws i] & <- & Hp). unfold wg_good in HG. rewrite Forall_forall in HG. destruct (HG _ Hp) as (_ & A & _ & _ & B & C). cbn [fst snd] in A, B, C.
    apply concat_good; [exact A|]. split; intro H; cbn [T list_ascii_of_string app In] in H; intuition discriminate. }
  rewrite wg_load_defs. f_equal. assert (D : wg_defs (wg_print m) = m).
  { unfold wg_defs. rewrite L. clear - HG. induction m as [|[ws i] m IH]; [reflexivity|]. inversion HG as [|? ? (NE & A & B) HG']; subst. cbn [fst snd] in *. cbn [map flat_map]. rewrite (IH HG'). rewrite wg_text_flds by assumption. cbn zeta.
    rewrite app_length. cbn [length]. destruct ws as [|w ws]; [contradiction|]. destruct (Nat.leb_spec 3 (length (w :: ws) + 2)) as [_|X]; [|cbn [length] in X; lia]. rewrite Nat.add_sub. rewrite firstn_app, Nat.sub_diag, firstn_all, app_nil_r. cbn [app]. f_equal. f_equal.
    change ((w :: ws ++ [T "|||"; i])) with ((w :: ws) ++ [T "|||"; i]). change [T "|||"; i] with ([T "|||"] ++ [i]). rewrite app_assoc. apply last_last. }
  rewrite D. apply (fold_put_sorted m []). exact HS.
Qed.

(** ** segmentation lengths *)
Local Open Scope Q_scope.
Definition in_rng (p : nat * nat) : Prop := (fst p < MAXL)%nat /\ (snd p < MAXL)%nat.
Lemma qn_S : forall n, qn (S n) == qn n + 1.
Proof. intros n. unfold qn. rewrite Nat2Z.inj_succ, <- Z.add_1_r, inject_Z_plus. reflexivity. Qed.
Lemma train_ok : forall o t, Forall in_rng o -> exists t', sl_train o t = Some t' /\
  forall i j, s_cnt t' i j == s_cnt t i j + qn (n_pair i j o) /\ s_marg t' i == s_marg t i + qn (n_len i o).
Proof.
  induction o as [|[a b] o IH]; intros t F; cbn [sl_train].
  - exists t. split; [reflexivity|]. intros i j. unfold n_pair, n_len. cbn [filter length]. unfold qn. cbn. rewrite !Qplus_0_r. split; reflexivity.
  - inversion F as [|? ? [P1 P2] F']; subst. cbn [fst snd] in P1, P2. unfold incr_tlenk, incr_tlen. apply Nat.ltb_lt in P1, P2. rewrite P1, P2. cbn [andb].
    match goal with |- exists t', sl_train o ?x = _ /\ _ => destruct (IH x F') as (t' & E & G) end. exists t'. split; [exact E|]. intros i j. destruct (G i j) as [A B]. cbn [s_cnt s_marg] in A, B. unfold upd2, upd1 in A, B.
    unfold n_pair, n_len in *. cbn [filter fst snd]. rewrite A, B. rewrite (Nat.eqb_sym a i), (Nat.eqb_sym b j). clear A B. split.
    + destruct (Nat.eqb_spec i a) as [->|]; cbn [andb]; [|reflexivity]. destruct (Nat.eqb_spec j b) as [->|]; [|reflexivity]. cbn [length]. rewrite qn_S. ring.
    + destruct (Nat.eqb_spec i a) as [->|]; [|reflexivity]. cbn [length]. rewrite qn_S. ring.
Qed.
Lemma sumQ_ext : forall (f g : nat -> Q) l, (forall x, In x l -> f x == g x) -> sumQ (map f l) == sumQ (map g l).
Proof. intros f g. induction l as [|x l IH]; intros H; [reflexivity|]. cbn [map sumQ fold_right]. fold (sumQ (map f l)). fold (sumQ (map g l)). rewrite (H x (or_introl eq_refl)), IH; [reflexivity|]. intros y Hy. apply H. now right. Qed.
Lemma sumQ_add : forall (f g : nat -> Q) l, sumQ (map (fun x => f x + g x) l) == sumQ (map f l) + sumQ (map g l).
Proof. intros f g. induction l as [|x l IH]; [reflexivity|]. cbn [map sumQ fold_right]. fold (sumQ (map f l)). fold (sumQ (map g l)). fold (sumQ (map (fun x => f x + g x) l)). rewrite IH. ring. Qed.
Lemma sumQ_point : forall b v n s, sumQ (map (fun j => if (j =? b)%nat then v else 0) (seq s n)) == if ((s <=? b) && (b <? s + n))%nat then v else 0.
Proof.
  intros b v. induction n as [|n IH]; intros s; cbn [seq map].
  - destruct (Nat.leb_spec s b); destruct (Nat.ltb_spec b (s + 0)); try lia; reflexivity.
  - cbn [sumQ fold_right]. fold (sumQ (map (fun j => if (j =? b)%nat then v else 0) (seq (S s) n))). rewrite IH.
    destruct (Nat.eqb_spec s b); destruct (Nat.leb_spec (S s) b); destruct (Nat.leb_spec s b); destruct (Nat.ltb_spec b (S s + n)); destruct (Nat.ltb_spec b (s + S n)); try lia; cbn [andb]; ring.
Qed.
Lemma n_len_sum : forall o i, Forall in_rng o -> sumQ (map (fun j => qn (n_pair i j o)) (seq 0 MAXL)) == qn (n_len i o).
Proof.
  induction o as [|[a b] o IH]; intros i F; [reflexivity|]. inversion F as [|? ? [P1 P2] F']; subst. cbn [fst snd] in P1, P2.
  assert (E : forall j, qn (n_pair i j ((a, b) :: o)) == (if (j =? b)%nat then (if (a =? i)%nat then 1 else 0) else 0) + qn (n_pair i j o)).
  { intros j. unfold n_pair. cbn [filter fst snd]. rewrite (Nat.eqb_sym b j). destruct (a =? i)%nat, (j =? b)%nat; cbn [andb length]; rewrite ?qn_S; ring. }
  rewrite (sumQ_ext _ _ _ (fun j _ => E j)), sumQ_add, (IH i F'), sumQ_point. apply Nat.ltb_lt in P2. change (0 + MAXL)%nat with MAXL. rewrite P2. cbn [Nat.leb andb].
  unfold n_len. cbn [filter fst]. destruct (a =? i)%nat; cbn [length]; rewrite ?qn_S; ring.
Qed.
Definition est (o : list (nat * nat)) (i j : nat) : Q := if (n_len i o =? 0)%nat then 0 else qn (n_pair i j o) / qn (n_len i o).
Definition pk_is (t : slt) (i j : nat) (v : Q) : Prop := exists q, pk_tlen t i j = Some q /\ q == v.
Lemma qn_0 : forall n, qn n == 0 <-> n = 0%nat.
Proof. intros n. unfold qn, Qeq. cbn. rewrite Z.mul_1_r. lia. Qed.
Lemma pk_of : forall t i j c m, (i < MAXL)%nat -> (j < MAXL)%nat -> s_cnt t i j == c -> s_marg t i == m -> pk_is t i j (if Qeq_bool m 0 then 0 else c / m).
Proof.
  intros t i j c m A B C D. unfold pk_is, pk_tlen. destruct (Nat.ltb_spec MAXL i); [lia|]. destruct (Nat.ltb_spec MAXL j); [lia|]. cbn [orb].
  destruct (Nat.leb_spec MAXL i); [lia|]. destruct (Qeq_bool (s_marg t i) 0) eqn:E1.
  - apply Qeq_bool_iff in E1. destruct (Qeq_bool m 0) eqn:E2; [eexists; split; reflexivity|]. apply Qeq_bool_neq in E2. exfalso. apply E2. rewrite <- D. exact E1.
  - apply Qeq_bool_neq in E1. destruct (Nat.leb_spec MAXL j); [lia|]. destruct (Qeq_bool m 0) eqn:E2; [apply Qeq_bool_iff in E2; exfalso; apply E1; rewrite D; exact E2|]. eexists. split; [reflexivity|]. rewrite C, D. reflexivity.
Qed.
Lemma est_of : forall o i j, (if Qeq_bool (qn (n_len i o)) 0 then 0 else qn (n_pair i j o) / qn (n_len i o)) == est o i j.
Proof.
  intros o i j. unfold est. destruct (Nat.eqb_spec (n_len i o) 0) as [E|E].
  - apply qn_0 in E. apply Qeq_bool_iff in E. rewrite E. reflexivity.
  - destruct (Qeq_bool (qn (n_len i o)) 0) eqn:X; [|reflexivity]. apply Qeq_bool_iff in X. apply (proj1 (qn_0 _)) in X. contradiction.
Qed.
Lemma pk_is_eq : forall t i j v w, pk_is t i j v -> v == w -> pk_is t i j w.
Proof. intros t i j v w (q & A & B) E. exists q. split; [exact A|]. now rewrite B. Qed.
Theorem sl_estimates : forall o, Forall in_rng o -> exists t, sl_train o sl_clear = Some t /\ forall i j, (i < MAXL)%nat -> (j < MAXL)%nat -> pk_is t i j (est o i j).
Proof.
  intros o F. destruct (train_ok o sl_clear F) as (t & E & G). exists t. split; [exact E|]. intros i j A B. destruct (G i j) as [C D]. cbn [sl_clear s_cnt s_marg] in C, D. rewrite Qplus_0_l in C, D.
  eapply pk_is_eq; [exact (pk_of t i j _ _ A B C D)|apply est_of].
Qed.
Lemma sumQ_div : forall (f : nat -> Q) d l, sumQ (map (fun j => f j / d) l) == sumQ (map f l) / d.
Proof. intros f d. induction l as [|x l IH]; cbn [map sumQ fold_right]; [unfold Qdiv; ring|]. fold (sumQ (map (fun j => f j / d) l)). fold (sumQ (map f l)). rewrite IH. unfold Qdiv. ring. Qed.
Theorem est_sum : forall o i, Forall in_rng o -> n_len i o <> 0%nat -> sumQ (map (est o i) (seq 0 MAXL)) == 1.
Proof.
  intros o i F N. rewrite (sumQ_ext _ (fun j => qn (n_pair i j o) / qn (n_len i o))).
  - rewrite sumQ_div, n_len_sum by exact F. apply Qmult_inv_r. rewrite qn_0. exact N.
  - intros j _. unfold est. apply Nat.eqb_neq in N. rewrite N. reflexivity.
Qed.

Definition posb (q : Q) : bool := negb (Qle_bool q 0).
Definition etext (e : nat * nat * Q) : str := let '(i, j, q) := e in dec i ++ [SP] ++ dec j ++ [SP] ++ fmt_g q.
Definition rents (t : slt) (i : nat) (js : list nat) : list (nat * nat * Q) := flat_map (fun j => if posb (s_cnt t i j) then [(i, j, s_cnt t i j)] else []) js.
Definition ents (t : slt) : list (nat * nat * Q) := flat_map (fun i => rents t i (seq 0 MAXL)) (seq 0 MAXL).
Lemma print_file : forall t, sl_print t = file_of (map etext (ents t)).
Proof.
  intros t. unfold sl_print, ents, file_of.
  assert (R : forall i js, concat (map (fun j => if negb (Qle_bool (s_cnt t i j) 0) then dec i ++ [SP] ++ dec j ++ [SP] ++ fmt_g (s_cnt t i j) ++ [NL] else []) js) = concat (map (fun l => l ++ [NL]) (map etext (rents t i js)))).
  { intros i. induction js as [|j js IH]; [reflexivity|]. cbn [map concat rents flat_map]. fold (rents t i js). rewrite IH. unfold posb. destruct (negb (Qle_bool (s_cnt t i j) 0)); [|reflexivity]. rewrite map_app, map_app, concat_app. f_equal. cbn [map concat etext]. rewrite app_nil_r, <- !app_assoc. reflexivity. }
  assert (G : forall is, concat (map (sl_row t) is) = concat (map (fun l => l ++ [NL]) (map etext (flat_map (fun i => rents t i (seq 0 MAXL)) is)))); [|apply G].
  intros is. induction is as [|i is IH]; [reflexivity|]. cbn [map concat flat_map]. rewrite map_app, map_app, concat_app. f_equal; [apply R|exact IH].
Qed.
Definition put (e : nat * nat * Q) (t : slt) : slt := let '(i, j, q) := e in mkslt (upd2 (s_cnt t) i j (rd q)) (upd1 (s_marg t) i (s_marg t i + rd q)).
Lemma dec_clean_ : forall n, clean (dec n).
Proof. exact dec_clean. Qed.
Lemma s_int_dec : forall n, (n < MAXL)%nat -> s_int (dec n) = Some (Some n).
Proof.
  intros n H. unfold s_int. unfold MAXL in H. rewrite atoi_dec by (unfold INT_MAX; lia). destruct (N.ltb_spec 2147483647 (N.of_nat n)); [lia|reflexivity].
Qed.
Lemma sl_line_ok : forall i j q t, (i < MAXL)%nat -> (j < MAXL)%nat -> sl_line (etext (i, j, q)) t = Some (put (i, j, q) t).
Proof.
  intros i j q t A B. assert (F : flds (etext (i, j, q)) = [dec i; dec j; fmt_g q]).
  { unfold etext. cbn [app]. rewrite flds_clean_sp by apply dec_clean. rewrite flds_clean_sp by apply dec_clean. now rewrite flds_one by apply fmt_clean. }
  unfold sl_line. rewrite NFv_flds, F. cbn [length Nat.eqb]. rewrite !fld_S, F. cbn [nth]. rewrite !s_int_dec by assumption. cbn zeta. apply Nat.ltb_lt in A, B. rewrite A, B. cbn [andb].
  destruct (rd_ok q) as [E _]. rewrite E. reflexivity.
Qed.
Lemma ents_rng : forall t e, In e (ents t) -> (fst (fst e) < MAXL)%nat /\ (snd (fst e) < MAXL)%nat.
Proof.
  intros t e H. unfold ents in H. apply in_flat_map in H. destruct H as (i & Hi & H). apply in_flat_map in H. destruct H as (j & Hj & H). apply in_seq in Hi, Hj.
  destruct (posb (s_cnt t i j)); [|destruct H]. destruct H as [<-|[]]. cbn [fst snd]. lia.
Qed.
Lemma sl_lines_ok : forall es t, (forall e, In e es -> (fst (fst e) < MAXL)%nat /\ (snd (fst e) < MAXL)%nat) -> sl_lines (map etext es) t = Some (fold_left (fun t e => put e t) es t).
Proof.
  induction es as [|[[i j] q] es IH]; intros t H; [reflexivity|]. cbn [map sl_lines fold_left]. destruct (H (i, j, q) (or_introl eq_refl)) as [A B]. cbn [fst snd] in A, B. rewrite sl_line_ok by assumption. apply IH. intros e He. apply H. now right.
Qed.
Lemma row_fold : forall t i js t0, NoDup js -> let t1 := fold_left (fun t e => put e t) (rents t i js) t0 in
  (forall a b, s_cnt t1 a b = if (a =? i)%nat && (if in_dec Nat.eq_dec b js then true else false) && posb (s_cnt t i b) then rd (s_cnt t i b) else s_cnt t0 a b) /\
  (forall a, s_marg t1 a == s_marg t0 a + if (a =? i)%nat then sumQ (map (fun j => if posb (s_cnt t i j) then rd (s_cnt t i j) else 0) js) else 0).
Proof.
  intros t i. induction js as [|j js IH]; intros t0 ND.
  - cbn [rents flat_map fold_left map sumQ fold_right]. split; [intros a b; rewrite andb_false_r; reflexivity|intros a; destruct (a =? i)%nat; ring].
  - inversion ND as [|? ? NI ND']; subst. cbn [rents flat_map]. fold (rents t i js). rewrite fold_left_app. cbn zeta. destruct (IH (fold_left (fun t e => put e t) (if posb (s_cnt t i j) then [(i, j, s_cnt t i j)] else []) t0) ND') as [A B]. split.
    + intros a b. rewrite A. destruct (Nat.eqb_spec a i) as [->|NA]; cbn [andb].
      * destruct (in_dec Nat.eq_dec b js) as [I1|I1]; destruct (in_dec Nat.eq_dec b (j :: js)) as [I2|I2]; cbn [andb].
        -- destruct (posb (s_cnt t i b)) eqn:PB; [reflexivity|]. destruct (posb (s_cnt t i j)); cbn [fold_left put s_cnt]; [|reflexivity]. unfold upd2. destruct (Nat.eqb_spec b j) as [->|]; [contradiction|]. now rewrite andb_false_r.
        -- exfalso. apply I2. now right.
        -- destruct I2 as [<-|I2]; [|contradiction]. destruct (posb (s_cnt t i j)); cbn [fold_left put s_cnt]; [|reflexivity]. unfold upd2. rewrite !Nat.eqb_refl. reflexivity.
        -- destruct (posb (s_cnt t i j)); cbn [fold_left put s_cnt]; [|reflexivity]. unfold upd2. destruct (Nat.eqb_spec b j) as [->|]; [exfalso; apply I2; now left|]. now rewrite andb_false_r.
      * destruct (posb (s_cnt t i j)); cbn [fold_left put s_cnt]; [|reflexivity]. unfold upd2. apply Nat.eqb_neq in NA. now rewrite NA.
    + intros a. rewrite B. cbn [map sumQ fold_right]. fold (sumQ (map (fun j => if posb (s_cnt t i j) then rd (s_cnt t i j) else 0) js)). destruct (posb (s_cnt t i j)); cbn [fold_left put s_marg].
      * unfold upd1. destruct (Nat.eqb_spec a i) as [->|]; ring.
      * destruct (a =? i)%nat; ring.
Qed.
Lemma rows_fold : forall t is t0, NoDup is -> let t1 := fold_left (fun t e => put e t) (flat_map (fun i => rents t i (seq 0 MAXL)) is) t0 in
  (forall a b, s_cnt t1 a b = if (if in_dec Nat.eq_dec a is then true else false) && (if in_dec Nat.eq_dec b (seq 0 MAXL) then true else false) && posb (s_cnt t a b) then rd (s_cnt t a b) else s_cnt t0 a b) /\
  (forall a, s_marg t1 a == s_marg t0 a + if in_dec Nat.eq_dec a is then sumQ (map (fun j => if posb (s_cnt t a j) then rd (s_cnt t a j) else 0) (seq 0 MAXL)) else 0).
Proof.
  intros t. induction is as [|i is IH]; intros t0 ND.
  - cbn [flat_map fold_left]. split; [intros; destruct (in_dec Nat.eq_dec a []) as [[]|]; reflexivity|intros; destruct (in_dec Nat.eq_dec a []) as [[]|]; ring].
  - inversion ND as [|? ? NI ND']; subst. cbn [flat_map]. rewrite fold_left_app. cbn zeta.
    destruct (row_fold t i (seq 0 MAXL) t0 (seq_NoDup _ _)) as [RA RB]. destruct (IH (fold_left (fun t e => put e t) (rents t i (seq 0 MAXL)) t0) ND') as [A B]. split.
    + intros a b. rewrite A, RA. destruct (in_dec Nat.eq_dec a is) as [I1|I1]; destruct (in_dec Nat.eq_dec a (i :: is)) as [I2|I2]; cbn [andb].
      * destruct (Nat.eqb_spec a i) as [->|]; [contradiction|]. reflexivity.
      * exfalso. apply I2. now right.
      * destruct I2 as [->|I2]; [|contradiction]. rewrite Nat.eqb_refl. reflexivity.
      * destruct (Nat.eqb_spec a i) as [->|]; [exfalso; apply I2; now left|]. reflexivity.
    + intros a. rewrite B, RB. destruct (in_dec Nat.eq_dec a is) as [I1|I1]; destruct (in_dec Nat.eq_dec a (i :: is)) as [I2|I2].
      * destruct (Nat.eqb_spec a i) as [->|]; [contradiction|]. ring.
      * exfalso. apply I2. now right.
      * destruct I2 as [->|I2]; [|contradiction]. rewrite Nat.eqb_refl. ring.
      * destruct (Nat.eqb_spec a i) as [->|]; [exfalso; apply I2; now left|]. ring.
Qed.
(** what a table contains after it is written and read *)
Lemma reload : forall t, exists t', sl_load (Some (sl_print t)) = Some t' /\ forall i, (i < MAXL)%nat ->
  (forall j, (j < MAXL)%nat -> s_cnt t' i j = if posb (s_cnt t i j) then rd (s_cnt t i j) else 0) /\
  s_marg t' i == sumQ (map (fun j => if posb (s_cnt t i j) then rd (s_cnt t i j) else 0) (seq 0 MAXL)).
Proof.
  intros t. unfold sl_load. assert (L : file_lines (sl_print t) = map etext (ents t)).
  { rewrite print_file. unfold file_lines. rewrite read_lines_ok; [reflexivity|]. apply Forall_forall. intros l Hl. apply in_map_iff in Hl. destruct Hl as ([[i j] q] & <- & _). unfold etext.
    assert (GC : forall w, clean w -> good_line w) by (intros w (_ & _ & X & Y); split; assumption). assert (GA : forall a b, good_line a -> good_line b -> good_line (a ++ b)) by (intros a b [X1 X2] [Y1 Y2]; split; intro H; apply in_app_or in H; tauto).
    repeat apply GA; try (apply GC; first [apply dec_clean|apply fmt_clean]); split; cbn; intuition discriminate. }
  rewrite L, (sl_lines_ok _ _ (ents_rng t)). eexists. split; [reflexivity|]. destruct (rows_fold t (seq 0 MAXL) sl_clear (seq_NoDup _ _)) as [A B]. fold (ents t) in A, B. intros i Hi.
  assert (Ii : In i (seq 0 MAXL)) by (apply in_seq; lia). split.
  - intros j Hj. rewrite A. destruct (in_dec Nat.eq_dec i (seq 0 MAXL)) as [_|X]; [|contradiction]. destruct (in_dec Nat.eq_dec j (seq 0 MAXL)) as [_|X]; [|exfalso; apply X; apply in_seq; lia]. reflexivity.
  - rewrite B. destruct (in_dec Nat.eq_dec i (seq 0 MAXL)) as [_|X]; [|contradiction]. cbn [sl_clear s_marg]. apply Qplus_0_l.
Qed.
Lemma pair_le : forall i j o, (n_pair i j o <= length o)%nat.
Proof. intros i j o. unfold n_pair. induction o as [|p o IH]; [reflexivity|]. cbn [filter length]. destruct ((fst p =? i)%nat && (snd p =? j)%nat); cbn [length]; lia. Qed.
Lemma small_rd : forall x n, (Z.of_nat n < 1000000)%Z -> x == qn n -> (if posb x then rd x else 0) == qn n.
Proof.
  intros x n H E. unfold posb. destruct (Qle_bool x 0) eqn:L; cbn [negb].
  - apply Qle_bool_iff in L. rewrite E in L. unfold qn, Qle in L. cbn in L. rewrite Z.mul_1_r in L. assert (n = 0)%nat by lia. subst n. reflexivity.
  - destruct (rd_ok x) as [_ V]. rewrite V, shown_exact; [exact E|]. exists (Z.of_nat n), 0%Z. split; [lia|]. rewrite E. unfold qn. cbn. ring.
Qed.
Theorem sl_round_trip : forall o, Forall in_rng o -> (Z.of_nat (length o) < 1000000)%Z -> exists t t', sl_train o sl_clear = Some t /\ sl_load (Some (sl_print t)) = Some t' /\
  forall i j, (i < MAXL)%nat -> (j < MAXL)%nat -> pk_is t' i j (est o i j).
Proof.
  intros o F H. destruct (train_ok o sl_clear F) as (t & E & G). destruct (reload t) as (t' & E' & R). exists t, t'. split; [exact E|]. split; [exact E'|]. intros i j A B.
  destruct (R i A) as [C D]. assert (P : forall b, (if posb (s_cnt t i b) then rd (s_cnt t i b) else 0) == qn (n_pair i b o)).
  { intros b. apply small_rd; [pose proof (pair_le i b o); lia|]. destruct (G i b) as [X _]. cbn [sl_clear s_cnt] in X. now rewrite Qplus_0_l in X. }
  assert (C' : s_cnt t' i j == qn (n_pair i j o)) by (rewrite (C j B); apply P).
  assert (D' : s_marg t' i == qn (n_len i o)). { rewrite D. rewrite (sumQ_ext _ (fun b => qn (n_pair i b o)) _ (fun b _ => P b)). now apply n_len_sum. }
  eapply pk_is_eq; [exact (pk_of t' i j _ _ A B C' D')|apply est_of].
Qed.
(** the table used when no file can be read *)
Lemma const_pk : forall i j, (i < MAXL)%nat -> (j < MAXL)%nat -> pk_is sl_const i j 1.
Proof. intros i j A B. eapply pk_is_eq; [exact (pk_of sl_const i j 1 1 A B (Qeq_refl _) (Qeq_refl _))|reflexivity]. Qed.
Lemma rd_1 : rd 1 == 1. Proof. reflexivity. Qed.
Lemma reload_const : exists t', sl_load (Some (sl_print sl_const)) = Some t' /\ forall i j, (i < MAXL)%nat -> (j < MAXL)%nat -> pk_is t' i j (1 # 101).
Proof.
  destruct (reload sl_const) as (t' & E & R). exists t'. split; [exact E|]. intros i j A B. destruct (R i A) as [C D]. assert (M : s_marg t' i == 101) by (rewrite D; reflexivity).
  assert (C' : s_cnt t' i j == 1) by (rewrite (C j B); reflexivity). eapply pk_is_eq; [exact (pk_of t' i j 1 101 A B C' M)|reflexivity].
Qed.
Lemma pk_far : forall t i j, (MAXL < i)%nat \/ (MAXL < j)%nat -> pk_tlen t i j = Some 0.
Proof. intros t i j H. unfold pk_tlen. destruct (Nat.ltb_spec MAXL i); [reflexivity|]. destruct (Nat.ltb_spec MAXL j); [reflexivity|lia]. Qed.
