(** Dictionary features: C147 (from a file), C148 (on the fly); corrections without phrases: C149. *)
From Coq Require Import Ascii String ZArith QArith List Bool Arith Lia.
From Verif Require Import EditDistSpec EditDistModel TextSpec TextModel VocabSpec VocabModel GfmtModel PmText DescSpec DescModel DescProofs EcSpec EcModel EcProofs DictSpec DictModel DictProofs PropertiesEc.
Import ListNotations.
Local Open Scope nat_scope.

(** C147: a dictionary read from a file of entries gives each pair of phrases the score of its last line, every other pair the smoothing value, and
    offers for a source phrase exactly the target phrases with an entry, each once *)
Theorem C147_loaded : forall f es, Forall2 (line_of atofq) (file_lines f) es -> exists d, loadDict (Some f) = Some d /\
  (forall s t, dictScore d s t = match latest phrase_dec es s t with Some q => Some q | None => Some DICT_SMOOTH end) /\
  (forall s, NoDup (transOptions d s) /\ forall t, In t (transOptions d s) <-> latest phrase_dec es s t <> None).
Proof.
  intros f es H. eexists. split; [exact (load_ok f es H)|]. split.
  - intros s t. unfold dictScore. destruct (put_all_new (map (fun e => (fst e, Some (snd e))) es) s) as (_ & L & _). rewrite L, latest_some. destruct (latest phrase_dec es s t); reflexivity.
  - intro s. destruct (put_all_new (map (fun e => (fst e, Some (snd e))) es) s) as (N & L & O). split; [exact N|]. intro t. rewrite O, latest_some. destruct (latest phrase_dec es s t); cbn; split; intros G C; try discriminate; now apply G.
Qed.
Print Assumptions C147_loaded.
(** a missing file is reported *)
Theorem C147_missing : loadDict None = None.
Proof. reflexivity. Qed.
Print Assumptions C147_missing.
(** refuted: lines that are not entries are not left out.  A line without bars offers the empty phrase as a translation, with a score never assigned;
    a line that lost its number takes away the score of an entry before it *)
Theorem C147_no_bars_refuted : exists d, loadDict (Some (T "red house
")) = Some d /\ transOptions d [T "red"; T "house"] = [[]] /\ dictScore d [T "red"; T "house"] [] = None.
Proof. eexists. split; [vm_compute; reflexivity|]. split; vm_compute; reflexivity. Qed.
Print Assumptions C147_no_bars_refuted.
Theorem C147_overwritten_refuted : exists d, loadDict (Some (T "a ||| x ||| 0.5
a ||| x
")) = Some d /\ dictScore d [T "a"] [T "x"] = None.
Proof. eexists. split; vm_compute; reflexivity. Qed.
Print Assumptions C147_overwritten_refuted.
(** refuted: the error is known (extractEntryInfo returns it) but the file is loaded as if it were right *)
Theorem C147_unreported_refuted : exists l, fst (fst (fst (extractEntryInfo l))) = false /\ loadDict (Some (l ++ [ascii_of_nat 10])) <> None.
Proof. exists (T "a ||| x"). split; [vm_compute; reflexivity|]. cbn. discriminate. Qed.
Print Assumptions C147_unreported_refuted.

(** C148: after any history of additions and clearings a pair has the score and the information of its last addition since the last clearing,
    every other pair 0 and no information; the translation options are the target phrases added, each once *)
Theorem C148_history : forall h, let d := fold_left dstep h [] in let es := since_clear h [] in
  (forall s t, otfScore d s t = match latest phrase_dec es s t with Some (q, _) => q | None => 0%Q end) /\
  (forall s t, otfInfo d s t = match latest phrase_dec es s t with Some (_, i) => (i, true) | None => ([], false) end) /\
  (forall s, NoDup (transOptions d s) /\ forall t, In t (transOptions d s) <-> latest phrase_dec es s t <> None).
Proof.
  intros h d es. assert (D : d = put_all es []) by (unfold d, es; rewrite <- history_put; reflexivity). rewrite D.
  split; [|split].
  - intros s t. destruct (put_all_new es s) as (_ & L & _). unfold otfScore. rewrite L. reflexivity.
  - intros s t. destruct (put_all_new es s) as (_ & L & _). unfold otfInfo. rewrite L. destruct (latest phrase_dec es s t) as [[q i]|]; reflexivity.
  - intro s. destruct (put_all_new es s) as (N & _ & O). auto.
Qed.
Print Assumptions C148_history.
(** what was added last is what is found *)
Theorem C148_last : forall h s t q i, let d := fold_left dstep (h ++ [DAdd s t q i]) [] in otfScore d s t = q /\ otfInfo d s t = (i, true) /\ In t (transOptions d s) /\
  forall s' t', (s', t') <> (s, t) -> otfScore d s' t' = otfScore (fold_left dstep h []) s' t'.
Proof.
  intros h s t q i d. unfold d. rewrite fold_left_app. cbn [fold_left dstep]. unfold otfScore, otfInfo. rewrite lookup_add.
  destruct (phrase_dec s s); [|congruence]. destruct (phrase_dec t t); [|congruence]. split; [reflexivity|]. split; [reflexivity|]. split.
  - apply options_in. rewrite lookup_add. destruct (phrase_dec s s); [|congruence]. destruct (phrase_dec t t); [eauto|congruence].
  - intros s' t' N. rewrite lookup_add. destruct (phrase_dec s s') as [->|]; [|reflexivity]. destruct (phrase_dec t t') as [->|]; [congruence|reflexivity].
Qed.
Print Assumptions C148_last.
(** refuted: a pair that is not in the dictionary scores higher than one in it whose score is a log-probability *)
Theorem C148_unknown_refuted : exists h s t s' t', (otfScore (fold_left dstep h []) s t < otfScore (fold_left dstep h []) s' t')%Q /\ ~ In t' (transOptions (fold_left dstep h []) s').
Proof. exists [DAdd [T "a"] [T "x"] (-1 # 2)%Q []], [T "a"], [T "x"], [T "a"], [T "y"]. split; [vm_compute; reflexivity|]. vm_compute. intros [H|[]]. discriminate. Qed.
Print Assumptions C148_unknown_refuted.

(** C149: with nothing typed the sentence is its own and only correction, with probability 1, whatever the error correction model *)
Theorem C149_nothing_typed : forall sim fix_ out n, out <> [] -> correct sim fix_ out [] (S n) = Some [(0%Z, out)].
Proof. intros sim fix_ [|w out] n N; [congruence|]. reflexivity. Qed.
Print Assumptions C149_nothing_typed.
(** with something typed there is one correction; its score is the similarity and its words begin with what was typed, unfinished last words continued;
    after a finished word the last word can have got the blank *)
Definition ec_sim hc ic sc dc useDel (x p : list str) : option Z := option_map (fun r => (- fst r)%Z) (correct_given_prefix hc ic sc dc useDel x p).
Definition ec_fix hc ic sc dc useDel (x p : list str) : option (list str) := option_map snd (correct_given_prefix hc ic sc dc useDel x p).
Theorem C149_correction : forall (hc ic sc dc : Z) (useDel : bool) (out p0 : list str) (l : str) (b : bool) n,
  (0 < dc)%Z -> clean l -> (forall w, In w p0 -> clean w) -> (forall w, In w out -> w <> []) -> out <> [] ->
  exists d r0 r, correct_given_prefix hc ic sc dc useDel out (typed p0 l b) = Some (d, r0) /\
    correct (ec_sim hc ic sc dc useDel) (ec_fix hc ic sc dc useDel) out (typed p0 l b) (S n) = Some [((- d)%Z, r)] /\
    extends (negb b) r0 (p0 ++ [l]) /\ (r = r0 \/ b = true /\ exists u, r0 = u ++ [l] /\ r = u ++ [l ++ [SP]]).
Proof.
  intros hc ic sc dc useDel out p0 l b n DC CL CP XN ON. destruct (C93_correction_extends_prefix hc ic sc dc useDel out p0 l b DC CL CP XN) as (d & r0 & E & X & _).
  exists d, r0. unfold correct. destruct out as [|w0 out']; [congruence|]. set (o := w0 :: out') in *. destruct (typed p0 l b) as [|t0 tr] eqn:TY; [unfold typed in TY; destruct p0; discriminate|].
  rewrite <- TY in *. unfold ec_sim at 1. rewrite E. cbn [option_map fst].
  cbn [Nat.leb]. unfold correctedSent, ec_fix. rewrite E. cbn [option_map snd].
  assert (LP : last (typed p0 l b) [] = if b then l ++ [SP] else l) by (unfold typed; apply last_last). rewrite LP.
  assert (R0 : r0 <> []) by (destruct X as (u & a & t & r & _ & -> & _); destruct u; discriminate).
  destruct CL as [LN LB]. destruct b.
  - rewrite last_last. destruct (l ++ [SP]) as [|x0 y0] eqn:LE; [destruct l; discriminate|]. rewrite <- LE. cbn [Ascii.eqb]. rewrite Ascii.eqb_refl. destruct r0 as [|a0 r0']; [congruence|]. set (r0 := a0 :: r0') in *.
    destruct (str_dec (last r0 [] ++ [SP]) (l ++ [SP])) as [Q|Q].
    + exists (removelast r0 ++ [l ++ [SP]]). split; [reflexivity|]. split; [reflexivity|]. split; [exact X|]. right. split; [reflexivity|]. exists (removelast r0). split; [|reflexivity].
      apply app_inv_tail in Q. rewrite <- Q. now apply app_removelast_last.
    + exists r0. split; [reflexivity|]. split; [reflexivity|]. split; [exact X|now left].
  - assert (NB : Ascii.eqb (last l NUL) SP = false).
    { apply Ascii.eqb_neq. intro C. apply LB. rewrite <- C. clear - LN. destruct (exists_last LN) as [u [c ->]]. rewrite last_last. apply in_or_app. right. now left. }
    rewrite NB. exists r0. split; [reflexivity|]. split; [destruct l; [congruence|reflexivity]|]. split; [exact X|now left].
Qed.
Print Assumptions C149_correction.
(** refuted: an empty sentence (nothing could be translated) makes elements of an empty vector be read *)
Theorem C149_empty_output_refuted : forall sim fix_ pref n, correct sim fix_ [] pref n = None.
Proof. reflexivity. Qed.
Print Assumptions C149_empty_output_refuted.
(** refuted: an empty last typed word makes the element before its first one be read *)
Theorem C149_empty_word_refuted : forall sim fix_ out p0 n, correct sim fix_ out (p0 ++ [[]]) (S n) = None.
Proof.
  intros sim fix_ [|w out] p0 n; [reflexivity|]. unfold correct. destruct (p0 ++ [[]]) as [|a p] eqn:E; [destruct p0; discriminate|]. rewrite <- E. destruct (sim _ _); [|reflexivity].
  cbn [Nat.leb]. unfold correctedSent. rewrite last_last. destruct (fix_ _ _); reflexivity.
Qed.
Print Assumptions C149_empty_word_refuted.
(** refuted: with a list of no corrections asked for there is none, not even the sentence itself; the list has never more than one, whatever its size *)
Theorem C149_one_refuted : forall sim fix_ out pref n r, correct sim fix_ out pref n = Some r -> length r <= 1 /\ (n = 0 -> r = []).
Proof.
  intros sim fix_ [|w out] pref n r H; [discriminate|]. unfold correct in H. destruct pref as [|a p].
  - destruct n; cbn in H; injection H as <-; cbn; split; auto; lia.
  - destruct (sim _ _); [|discriminate]. destruct n; cbn [Nat.leb] in H; [injection H as <-; cbn; auto|]. destruct (correctedSent _ _ _ _) eqn:C; [|discriminate]. cbn in H. injection H as <-. cbn. split; [lia|lia].
Qed.
Print Assumptions C149_one_refuted.

(** ** concrete cases *)
Example C147_nonvacuous : let f := T "la casa ||| the house ||| -0.5
la casa ||| home ||| -2
la casa ||| the house ||| -0.25
" in Forall2 (line_of atofq) (file_lines f) [([T "la"; T "casa"], [T "the"; T "house"], (-1 # 2)%Q); ([T "la"; T "casa"], [T "home"], (-2 # 1)%Q); ([T "la"; T "casa"], [T "the"; T "house"], (-1 # 4)%Q)] /\
  exists d q, loadDict (Some f) = Some d /\ transOptions d [T "la"; T "casa"] = [[T "the"; T "house"]; [T "home"]] /\ dictScore d [T "la"; T "casa"] [T "the"; T "house"] = Some q /\ (q == -1 # 4)%Q.
Proof.
  split.
  - assert (N : forall a : list str, forallb (fun w => if str_dec w bars then false else true) a = true -> ~ In bars a).
    { intros a H C. rewrite forallb_forall in H. specialize (H _ C). destruct (str_dec bars bars); congruence. }
    match goal with |- Forall2 _ (file_lines ?f) _ => replace (file_lines f) with [T "la casa ||| the house ||| -0.5"; T "la casa ||| home ||| -2"; T "la casa ||| the house ||| -0.25"] by (vm_compute; reflexivity) end.
    apply Forall2_cons; [|apply Forall2_cons; [|apply Forall2_cons; [|apply Forall2_nil]]]; (eexists; split; [vm_compute; reflexivity|split; [apply N; vm_compute; reflexivity|split; [apply N; vm_compute; reflexivity|vm_compute; reflexivity]]]).
  - eexists. eexists. split; [vm_compute; reflexivity|]. split; [vm_compute; reflexivity|]. split; [vm_compute; reflexivity|]. vm_compute. reflexivity.
Qed.
Example C148_nonvacuous : let d := fold_left dstep [DAdd [T "a"] [T "z"] 1 []; DClear; DAdd [T "a"] [T "x"] 2 (T "i"); DAdd [T "a"] [T "y"] 3 []; DAdd [T "a"] [T "x"] 4 (T "j")] [] in
  transOptions d [T "a"] = [[T "x"]; [T "y"]] /\ otfScore d [T "a"] [T "x"] = 4%Q /\ otfInfo d [T "a"] [T "x"] = (T "j", true) /\ otfInfo d [T "a"] [T "z"] = ([], false).
Proof. vm_compute. repeat split. Qed.
Example C149_nonvacuous : correct (ec_sim 0 1 1 1 true) (ec_fix 0 1 1 1 true) [T "teh"; T "hause"; T "is"] (typed [T "the"] (T "house") true) 1 <> None /\
  option_map (map snd) (correct (ec_sim 0 1 1 1 true) (ec_fix 0 1 1 1 true) [T "teh"; T "hause"; T "is"] (typed [T "the"] (T "house") true) 1) = Some [[T "the"; T "house"; T "is"]] /\
  option_map (map snd) (correct (ec_sim 0 1 1 1 true) (ec_fix 0 1 1 1 true) [T "teh"; T "hause"] (typed [T "the"] (T "house") true) 1) = Some [[T "the"; T "house "]].
Proof. vm_compute. repeat split. discriminate. Qed.
