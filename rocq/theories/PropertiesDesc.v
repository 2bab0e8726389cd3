(** C138-C142: model descriptors, word-graph handler files, segmentation-length tables. *)
From Coq Require Import Ascii String Arith ZArith NArith QArith List Bool Lia Sorted.
From Verif Require Import TextSpec TextModel TextProofs VocabModel GfmtModel DescSpec DescModel DescProofs.
Import ListNotations.
Local Open Scope nat_scope.

(** ** C138 *)
(** the directory of a file name is everything up to and including its last slash *)
Theorem C138_directory : forall d b, ~ In slash b -> extractDirName (d ++ slash :: b) = d ++ [slash] /\ extractDirName b = [].
Proof. intros d b H. split; [now apply dir_some|now apply dir_none]. Qed.
Print Assumptions C138_directory.
(** an absolute model file name is kept, a relative one is taken in the directory of the descriptor *)
Theorem C138_absolutize : forall d b m, ~ In slash b ->
  absolutize (d ++ slash :: b) (slash :: m) = slash :: m /\ absolutize b (slash :: m) = slash :: m /\
  (forall c, c <> slash -> absolutize (d ++ slash :: b) (c :: m) = d ++ slash :: c :: m /\ absolutize b (c :: m) = c :: m) /\ absolutize (d ++ slash :: b) [] = [].
Proof.
  intros d b m H. split; [reflexivity|]. split; [reflexivity|]. split; [|reflexivity]. intros c N. unfold absolutize. change SL with slash. destruct (Ascii.eqb_spec c slash) as [E|_]; [contradiction|].
  split; [|destruct b; [reflexivity|now rewrite dir_none]]. destruct (d ++ slash :: b) eqn:E; [destruct d; discriminate|]. rewrite <- E, dir_some by exact H. now rewrite <- app_assoc.
Qed.
Print Assumptions C138_absolutize.
(** the library directory variable is replaced at the beginning of a name, and nowhere else *)
Theorem C138_library : forall var dir s, (forall x, s = var ++ x -> expandLib var dir s = dir ++ x) /\ (~ (exists x, s = var ++ x) -> expandLib var dir s = s).
Proof. intros var dir s. split; [intros x ->; apply expand_hit|apply expand_miss]. Qed.
Print Assumptions C138_library.
Example C138_nonvacuous : extractDirName (T "/home/u/lm/lm_desc") = T "/home/u/lm/" /\ absolutize (T "/home/u/lm/lm_desc") (T "main/trg.lm") = T "/home/u/lm/main/trg.lm" /\
  expandLib (T "$(LIBDIR)") (T "/usr/lib/") (T "$(LIBDIR)x.so") = T "/usr/lib/x.so".
Proof. repeat split. Qed.

(** ** C139 *)
(** a descriptor written by printModelDescriptor is read as the same entries, in order, after those already in the vector *)
Theorem C139_round_trip : forall var dir fn es ms v, Forall2 mentry_of es ms -> Forall dentry_ok es ->
  extractModelEntryInfo var dir fn (Some (printModelDescriptor ms)) v =
  Some (v ++ map (fun e => mkme (spaced (map (expandLib var dir) (d_init e))) (d_file e) (d_status e) (absolutize fn (d_file e))) es).
Proof. exact desc_round_trip. Qed.
Print Assumptions C139_round_trip.
(** what follows a # on a line, and a line that starts with #, mean nothing *)
Theorem C139_comments : forall var dir fn l e rest, flds_of l = dwords e ++ rest -> (rest = [] \/ exists r, rest = T "#" :: r) -> dentry_ok e ->
  read_entry var dir fn l = Some (mkme (spaced (map (expandLib var dir) (d_init e))) (d_file e) (d_status e) (absolutize fn (d_file e))).
Proof. intros var dir fn l e rest H R (NE & _ & NH). apply read_entry_ok with (rest := rest); [exact H|exact NH|intro X; contradiction|exact R]. Qed.
Print Assumptions C139_comments.
Theorem C139_skipped : forall var dir fn l, (exists r, flds_of l = T "#" :: r) \/ length (flds_of l) < 3 -> read_entry var dir fn l = None.
Proof. exact read_entry_skip. Qed.
Print Assumptions C139_skipped.
(** REFUTED: a line with fewer than three words before its comment is not skipped: with two words the entry has no library, with one
    the model file is the whole line *)
Theorem C139_short_refuted :
  read_entry (T "$(V)") (T "/l/") (T "d/desc") (T "lm main") = None /\
  read_entry (T "$(V)") (T "/l/") (T "d/desc") (T "lm main # old") = Some (mkme [] (T "lm") (T "main") (T "d/lm")) /\
  read_entry (T "$(V)") (T "/l/") (T "d/desc") (T "lm # old") = Some (mkme [] (T "lm # old") (T "lm") (T "d/lm # old")).
Proof. repeat split; vm_compute; reflexivity. Qed.
Print Assumptions C139_short_refuted.
(** REFUTED: an entry without library name does not survive *)
Theorem C139_no_library_refuted : extractModelEntryInfo (T "$(V)") (T "/l/") (T "d") (Some (printModelDescriptor [mkme [] (T "lm") (T "main") []])) [] = Some [].
Proof. vm_compute. reflexivity. Qed.
Print Assumptions C139_no_library_refuted.
(** a file whose first line is not a descriptor line gives an error and nothing else *)
Theorem C139_not_descriptor : forall var dir fn l r v, good_line l -> Forall good_line r -> (forall k, k = T "tm" \/ k = T "lm" \/ k = T "cf" -> firstn 3 (flds_of l) <> [T "thot"; k; T "descriptor"]) ->
  extractModelEntryInfo var dir fn (Some (file_of (l :: r))) v = None /\ extractModelEntryInfo var dir fn None v = None.
Proof.
  intros var dir fn l r v G F N. split; [|reflexivity]. unfold extractModelEntryInfo, fileIsDescriptor, file_lines. rewrite read_lines_ok by (now constructor).
  destruct (desc_head l) eqn:D; [|reflexivity]. exfalso. unfold desc_head in D. rewrite NFv_flds, !fld_S in D. change (words PmText.isSP l) with (flds_of l) in D.
  apply andb_true_iff in D. destruct D as [D D3]. apply andb_true_iff in D. destruct D as [D D2]. apply andb_true_iff in D. destruct D as [D0 D1]. apply Nat.leb_le in D0. apply isw_true in D1, D3.
  destruct (flds_of l) as [|a [|b [|c w]]]; try (cbn [length] in D0; lia). cbn [nth] in *. subst a c. apply (N b); [|reflexivity].
  apply orb_true_iff in D2. destruct D2 as [D2|D2]; [apply orb_true_iff in D2; destruct D2 as [D2|D2]|]; apply isw_true in D2; auto.
Qed.
Print Assumptions C139_not_descriptor.
Definition ex_e : dentry := mkde [T "$(V)jm.so"; T "3"] (T "main/trg.lm") (T "main").
Example C139_nonvacuous : dentry_ok ex_e /\
  extractModelEntryInfo (T "$(V)") (T "/l/") (T "/d/desc") (Some (printModelDescriptor [mkme (spaced (d_init ex_e)) (d_file ex_e) (d_status ex_e) []])) [] =
  Some [mkme (T "/l/jm.so 3") (T "main/trg.lm") (T "main") (T "/d/main/trg.lm")].
Proof. split; [|vm_compute; reflexivity]. split; [discriminate|]. split; [|cbn; intuition discriminate]. repeat constructor; try discriminate; cbn; intuition discriminate. Qed.

(** ** C140 *)
(** the main model of a descriptor written by printModelDescriptor, when every library has no parameters and no model file is called "main" *)
Theorem C140_main : forall es ms m0, Forall2 mentry_of es ms -> Forall dentry_ok es -> (forall e, In e es -> length (d_init e) = 1 /\ d_file e <> T "main") ->
  exists f, fileIsDescriptorMain (Some (printModelDescriptor ms)) m0 = (true, f) /\
  ((forall e, In e es -> d_status e <> T "main") /\ f = [] \/ exists a e b, es = a ++ e :: b /\ (forall x, In x a -> d_status x <> T "main") /\ d_status e = T "main" /\ f = d_file e).
Proof. exact main_round_trip. Qed.
Print Assumptions C140_main.
(** REFUTED: an entry whose library has a parameter is read with status main, but is not found as the main model; and a commented-out
    entry is found *)
Theorem C140_parameters_refuted : dentry_ok ex_e /\ d_status ex_e = T "main" /\ fileIsDescriptorMain (Some (printModelDescriptor [mkme (spaced (d_init ex_e)) (d_file ex_e) (d_status ex_e) []])) [] = (true, []).
Proof. split; [apply C139_nonvacuous|]. split; [reflexivity|]. vm_compute. reflexivity. Qed.
Print Assumptions C140_parameters_refuted.
Theorem C140_comment_refuted : let f := file_of [T "thot lm descriptor"; T "# old.lm main"; T "jm.so new.lm main"] in
  fileIsDescriptorMain (Some f) [] = (true, T "old.lm") /\ extractModelEntryInfo (T "$(V)") (T "/l/") (T "d") (Some f) [] = Some [mkme (T "jm.so") (T "new.lm") (T "main") (T "new.lm")].
Proof. split; vm_compute; reflexivity. Qed.
Print Assumptions C140_comment_refuted.
Example C140_nonvacuous : let e := mkde [T "jm.so"] (T "b.lm") (T "main") in dentry_ok e /\ length (d_init e) = 1 /\
  fileIsDescriptorMain (Some (printModelDescriptor [mkme (T "jm.so") (T "a.lm") (T "aux") []; mkme (T "jm.so") (T "b.lm") (T "main") []])) [] = (true, T "b.lm").
Proof. split; [|split; [reflexivity|vm_compute; reflexivity]]. split; [discriminate|]. split; [|cbn; intuition discriminate]. repeat constructor; try discriminate; cbn; intuition discriminate. Qed.

(** ** C141 *)
(** the sentence -> word-graph table of a file: each line with at least three words defines, for the words before its last two, its last word *)
Definition file_defs (f : str) : list (list str * str) :=
  flat_map (fun l => let ws := flds_of l in if 3 <=? length ws then [(firstn (length ws - 2) ws, last ws [])] else []) (file_lines f).
(** after a load, whatever was there before, a sentence has the word graph of the last line that defines it, and only then *)
Theorem C141_lookup : forall f m k, fst (wg_load (Some f) m) = true /\ last_def k (file_defs f) (wg_find (snd (wg_load (Some f) m)) k).
Proof. intros f m k. split; [reflexivity|]. exact (wg_load_find f m k). Qed.
Print Assumptions C141_lookup.
(** the sentences are kept in dictionary order, each once, and a file that cannot be opened changes nothing *)
Theorem C141_order : forall f m, StronglySorted sent_lt (map fst (snd (wg_load (Some f) m))) /\ wg_load None m = (false, m).
Proof. intros f m. split; [exact (wg_load_sorted f m)|reflexivity]. Qed.
Print Assumptions C141_order.
(** a printed table is read back as it was *)
Theorem C141_round_trip : forall m m0, StronglySorted sent_lt (map fst m) -> Forall (fun p => fst p <> [] /\ Forall tok (fst p) /\ tok (snd p)) m -> wg_load (Some (wg_print m)) m0 = (true, m).
Proof. exact wg_round_trip. Qed.
Print Assumptions C141_round_trip.
(** so loading, printing and loading again gives the same answers *)
Theorem C141_reload : forall f m m0, (forall l, In l (file_lines f) -> good_line l) -> wg_load (Some (wg_print (snd (wg_load (Some f) m)))) m0 = (true, snd (wg_load (Some f) m)).
Proof.
  intros f m m0 G. apply C141_round_trip; [exact (wg_load_sorted f m)|]. rewrite wg_load_defs. cbn [snd].
  assert (D : Forall (fun p : list str * str => fst p <> [] /\ Forall tok (fst p) /\ tok (snd p)) (wg_defs f)).
  { unfold wg_defs. apply Forall_forall. intros p Hp. apply in_flat_map in Hp. destruct Hp as (l & Hl & Hp). cbn zeta in Hp.
    assert (W : Forall tok (words PmText.isSP l)).
    { apply Forall_forall. intros w Hw. destruct (words_clean PmText.isSP l w Hw) as [NE C]. split; [exact NE|]. rewrite forallb_forall in C.
      split; [intro X; specialize (C _ X); discriminate|]. destruct (G l Hl) as [G1 G2].
      assert (SUB : forall s w c, In w (words PmText.isSP s) -> In c w -> In c s).
      { clear. intros s w c Hw Hc. unfold words in Hw. apply filter_In in Hw. destruct Hw as [Hw _]. revert w Hw Hc. induction s as [|x s IH]; intros w Hw Hc; cbn [segments] in Hw; [destruct Hw as [<-|[]]; destruct Hc|].
        destruct (PmText.isSP x); [destruct Hw as [<-|Hw]; [destruct Hc|right; now apply (IH w)]|]. destruct (segments PmText.isSP s) as [|g gs] eqn:E.
        - destruct Hw as [<-|[]]. destruct Hc as [->|[]]. now left.
        - destruct Hw as [<-|Hw]; [destruct Hc as [->|Hc]; [now left|right; apply (IH g); [now left|exact Hc]]|right; apply (IH w); [now right|exact Hc]]. }
      split; intro X; [apply G1|apply G2]; exact (SUB l w _ Hw X). }
    destruct (3 <=? length (words PmText.isSP l)) eqn:L; [|destruct Hp]. apply Nat.leb_le in L. destruct Hp as [<-|[]]. cbn [fst snd]. rewrite Forall_forall in W.
    split; [intro E; apply (f_equal (@length str)) in E; rewrite firstn_length in E; cbn [length] in E; lia|]. split.
    - apply Forall_forall. intros w Hw. apply W. rewrite <- (firstn_skipn (length (words PmText.isSP l) - 2)). apply in_or_app. now left.
    - apply W. apply last_in. intro E. rewrite E in L. cbn in L. lia. }
  assert (P : forall ds mm, Forall (fun p : list str * str => fst p <> [] /\ Forall tok (fst p) /\ tok (snd p)) ds -> Forall (fun p : list str * str => fst p <> [] /\ Forall tok (fst p) /\ tok (snd p)) mm ->
    Forall (fun p : list str * str => fst p <> [] /\ Forall tok (fst p) /\ tok (snd p)) (fold_left (fun m p => wg_put (fst p) (snd p) m) ds mm)).
  { clear. induction ds as [|[k v] ds IH]; intros mm F1 F2; [exact F2|]. inversion F1 as [|? ? Q F1']; subst. cbn [fold_left fst snd]. apply IH; [exact F1'|]. clear - Q F2. induction mm as [|[k' v'] mm IH]; cbn [wg_put]; [constructor; [exact Q|constructor]|].
    inversion F2 as [|? ? Q' F2']; subst. destruct (sent_ltb k k'); [constructor; [exact Q|exact F2]|]. destruct (sent_ltb k' k); constructor; auto. }
  apply P; [exact D|constructor].
Qed.
Print Assumptions C141_reload.
(** REFUTED: the empty sentence, and word-graph names with blanks, are lost when the table is printed and read *)
Theorem C141_lost_refuted : wg_load (Some (wg_print [([], T "wg1")])) [] = (true, []) /\
  wg_load (Some (wg_print [([T "a"], T "my wg")])) [] = (true, [([T "a"; T "|||"], T "wg")]).
Proof. split; vm_compute; reflexivity. Qed.
Print Assumptions C141_lost_refuted.
Example C141_nonvacuous : let m := snd (wg_load (Some (file_of [T "b a ||| wg2"; T "a b ||| wg1"; T "a ||| wg3"; T "a b ||| wg4"])) []) in
  m = [([T "a"], T "wg3"); ([T "a"; T "b"], T "wg4"); ([T "b"; T "a"], T "wg2")] /\ wg_find m [T "a"; T "b"] = Some (T "wg4") /\ wg_find m [T "b"] = None /\ wg_load (Some (wg_print m)) [] = (true, m).
Proof. cbn zeta. repeat split; vm_compute; reflexivity. Qed.

(** ** C142 *)
(** after any number of observations (lengths up to 100), the probability of k segments given the length is the relative frequency *)
Theorem C142_estimates : forall o, Forall in_rng o -> exists t, sl_train o sl_clear = Some t /\ forall i j, i <= 100 -> j <= 100 ->
  exists q, pk_tlen t i j = Some q /\ (q == if n_len i o =? 0 then 0 else qn (n_pair i j o) / qn (n_len i o))%Q.
Proof. intros o F. destruct (sl_estimates o F) as (t & E & G). exists t. split; [exact E|]. intros i j A B. apply G; unfold MAXL; lia. Qed.
Print Assumptions C142_estimates.
(** and these probabilities add up to one for every length observed *)
Theorem C142_sums_to_one : forall o i, Forall in_rng o -> n_len i o <> 0 -> (sumQ (map (fun j => if n_len i o =? 0 then 0 else qn (n_pair i j o) / qn (n_len i o)) (seq 0 101)) == 1)%Q.
Proof. exact est_sum. Qed.
Print Assumptions C142_sums_to_one.
(** a trained table with fewer than a million observations is printed and loaded with all its probabilities *)
Theorem C142_round_trip : forall o, Forall in_rng o -> (Z.of_nat (length o) < 1000000)%Z -> exists t t', sl_train o sl_clear = Some t /\ sl_load (Some (sl_print t)) = Some t' /\
  forall i j, i <= 100 -> j <= 100 -> exists q q', pk_tlen t i j = Some q /\ pk_tlen t' i j = Some q' /\ (q' == q)%Q.
Proof.
  intros o F L. destruct (sl_round_trip o F L) as (t & t' & E & E' & R). destruct (sl_estimates o F) as (t2 & E2 & G). rewrite E in E2. injection E2 as <-. exists t, t'. split; [exact E|]. split; [exact E'|]. intros i j A B.
  destruct (G i j) as (q & Q1 & Q2); [unfold MAXL; lia..|]. destruct (R i j) as (q' & R1 & R2); [unfold MAXL; lia..|]. exists q, q'. split; [exact Q1|]. split; [exact R1|]. now rewrite R2, Q2.
Qed.
Print Assumptions C142_round_trip.
(** beyond the table the probability is 0 *)
Theorem C142_far : forall t i j, 101 < i \/ 101 < j -> pk_tlen t i j = Some 0%Q.
Proof. exact pk_far. Qed.
Print Assumptions C142_far.
(** REFUTED: at 101 itself the guard lets the read through, past the end of the arrays, for any table; counting it writes there *)
Theorem C142_bound_refuted : forall t k, k <= 101 -> pk_tlen t 101 k = None /\ incr_tlenk 101 k t = None /\ incr_tlen 101 t = None.
Proof.
  intros t k H. split; [|split; reflexivity]. unfold pk_tlen, MAXL. destruct (Nat.ltb_spec 101 k); [lia|]. reflexivity.
Qed.
Print Assumptions C142_bound_refuted.
(** REFUTED: without a file every probability is 1, which is not a distribution, and printing and loading that table changes it to 1/101 *)
Theorem C142_constant_refuted : sl_load None = Some sl_const /\ (forall i j, i <= 100 -> j <= 100 -> exists q, pk_tlen sl_const i j = Some q /\ (q == 1)%Q) /\
  exists t', sl_load (Some (sl_print sl_const)) = Some t' /\ forall i j, i <= 100 -> j <= 100 -> exists q, pk_tlen t' i j = Some q /\ (q == 1 # 101)%Q.
Proof.
  split; [reflexivity|]. split; [intros i j A B; apply const_pk; unfold MAXL; lia|]. destruct reload_const as (t' & E & R). exists t'. split; [exact E|]. intros i j A B. apply R; unfold MAXL; lia.
Qed.
Print Assumptions C142_constant_refuted.
Example C142_nonvacuous : Forall in_rng [(5, 2); (5, 3); (5, 2); (7, 1)] /\ exists t t', sl_train [(5, 2); (5, 3); (5, 2); (7, 1)] sl_clear = Some t /\ (exists q, pk_tlen t 5 2 = Some q /\ (q == 2 # 3)%Q) /\
  sl_load (Some (T "5 2 2" ++ [NL] ++ T "5 3 1" ++ [NL] ++ T "7 1 1" ++ [NL])) = Some t' /\ (exists q, pk_tlen t' 5 2 = Some q /\ (q == 2 # 3)%Q).
Proof.
  split; [repeat constructor; unfold MAXL; cbn; lia|]. eexists. eexists. split; [reflexivity|]. split; [eexists; split; [vm_compute; reflexivity|reflexivity]|]. split; [vm_compute; reflexivity|]. eexists. split; [vm_compute; reflexivity|reflexivity].
Qed.
