(** Properties of the tools that train a model chunk by chunk: C101-C104. *)
From Coq Require Import Reals NArith Arith List Bool Sorted Permutation Lra Lia.
From Verif Require Import AMap LogNum RSums Ibm1Spec Ibm2Spec Ibm2Model MrModel MrSpec MrProofs MrTableProofs MrTrainModel MrTrainProofs MrPruneProofs.
Import ListNotations.
Open Scope R_scope.
(** C101: merging sorted files of counts adds up the counts; every execution of the priority queue gives a result with the same counts *)
Theorem C101_merge_lexical : forall fs res, (forall f, In f fs -> strictly_sorted lt_word lt_word f /\ consistent f) -> concat fs <> [] ->
  merge_tool lt_word lt_word N.eq_dec N.eq_dec fs res -> exists out, res = Some out /\ is_merge lt_word lt_word N.eq_dec N.eq_dec fs out.
Proof. apply merge_correct; apply ord_word. Qed.
Print Assumptions C101_merge_lexical.
Theorem C101_merge_ibm2 : forall fs res, (forall f, In f fs -> strictly_sorted lt_asource lt_pos f /\ consistent f) -> concat fs <> [] ->
  merge_tool lt_asource lt_pos aposdec Nat.eq_dec fs res -> exists out, res = Some out /\ is_merge lt_asource lt_pos aposdec Nat.eq_dec fs out.
Proof. apply merge_correct; [apply ord_asource|apply ord_pos]. Qed.
Print Assumptions C101_merge_ibm2.
Definition hmmdec : forall a b : nat * nat, {a = b} + {a <> b}.
Proof. decide equality; apply Nat.eq_dec. Defined.
Theorem C101_merge_hmm : forall fs res, (forall f, In f fs -> strictly_sorted lt_asourcehmm lt_pos f /\ consistent f) -> concat fs <> [] ->
  merge_tool lt_asourcehmm lt_pos hmmdec Nat.eq_dec fs res -> exists out, res = Some out /\ is_merge lt_asourcehmm lt_pos hmmdec Nat.eq_dec fs out.
Proof. apply merge_correct; [apply ord_asourcehmm|apply ord_pos]. Qed.
Print Assumptions C101_merge_hmm.
(** the tool stops on any files *)
Theorem C101_terminates : forall fs, exists res, merge_tool lt_word lt_word N.eq_dec N.eq_dec fs res.
Proof. apply merge_total; apply ord_word. Qed.
Print Assumptions C101_terminates.
(** if none of the files has a record the tool reads the first element of an empty vector *)
Theorem C101_empty_files_refuted : forall fs res, concat fs = [] -> merge_tool lt_word lt_word N.eq_dec N.eq_dec fs res -> res = None.
Proof. apply merge_empty. Qed.
Print Assumptions C101_empty_files_refuted.
Definition cr (s t : N) (n d : R) : rec N N := {| rs := s; rt := t; rn := Fin n; rd := Fin d |}.
Example C101_nonvacuous : let fs := [[cr 1 1 0 0; cr 2 3 1 2; cr 2 4 0 2]; []; [cr 2 3 5 5]] in
  (forall f, In f fs -> strictly_sorted lt_word lt_word f /\ consistent f) /\ concat fs <> [] /\ exists out, merge_tool lt_word lt_word N.eq_dec N.eq_dec fs (Some out) /\ count_of N.eq_dec N.eq_dec out 2%N 3%N = exp 1 + exp 5 /\ total_of N.eq_dec out 2%N = exp 2 + exp 5.
Proof.
  intros fs. assert (W : forall f, In f fs -> strictly_sorted lt_word lt_word f /\ consistent f).
  { intros f Hf. cbn in Hf. destruct Hf as [<-|[<-|[<-|[]]]].
    - split. { repeat (apply SSorted_cons || apply SSorted_nil || apply Forall_cons || apply Forall_nil); cbn; auto. }
      intros r Hr. cbn in Hr. destruct Hr as [<-|[<-|[<-|[]]]]; (split; [eexists; reflexivity|split; [eexists; reflexivity|]]); intros r' Hr'; cbn in Hr'; destruct Hr' as [<-|[<-|[<-|[]]]]; cbn; congruence.
    - split; [apply SSorted_nil|intros r []].
    - split; [apply SSorted_cons; [apply SSorted_nil|apply Forall_nil]|]. intros r [<-|[]]. split; [eexists; reflexivity|split; [eexists; reflexivity|]]. intros r' [<-|[]] _. reflexivity. }
  split; [exact W|]. split; [discriminate|]. destruct (C101_terminates fs) as [res M]. destruct (C101_merge_lexical fs res W) as (out & -> & (_ & _ & _ & V & D)); [discriminate|exact M|].
  exists out. split; [exact M|]. split; [rewrite V; cbn; ring|rewrite D; cbn; ring].
Qed.
(** C102: n iterations of training by chunks give the same model as n rounds of batch training on the whole corpus, for every way of cutting the corpus *)
Theorem C102_chunks_equal_batch : forall Ds E0 n infos lex alig, (forall p, In p (concat Ds) -> usable p -> 0 < weight p) -> mr Ds E0 n infos lex alig ->
  let whole := Nat.iter n (batch_round (concat Ds)) E0 in let M := load_model lex alig in
  (forall s t, pts2 (ltb M) s t = pts2 (ltb whole) s t) /\ (forall j l m i, aProb (atb M) j l m i = aProb (atb whole) j l m i).
Proof.
  intros Ds E0 n infos lex alig W H whole M. destruct (mr_ok Ds E0 n infos lex alig W H) as (_ & _ & (_ & _ & _ & _ & P1) & (_ & _ & _ & _ & P2)). split; [exact P1|]. intros. apply P2.
Qed.
Print Assumptions C102_chunks_equal_batch.
(** and the iterations can always be carried out (no empty merge) as soon as one sentence pair is usable *)
Theorem C102_runs : forall Ds E0 n p, (forall p, In p (concat Ds) -> usable p -> 0 < weight p) -> In p (concat Ds) -> usable p -> exists infos lex alig, mr Ds E0 (S n) infos lex alig.
Proof. intros. eapply mr_runs; eassumption. Qed.
Print Assumptions C102_runs.
Example C102_nonvacuous : let D1 := [{| weight := 1; src := [1%N]; trg := [1%N; 2%N] |}] in let D2 := [{| weight := 2; src := [1%N; 2%N]; trg := [2%N] |}] in
  exists infos lex alig, mr [D1; D2] em2_new 3 infos lex alig.
Proof. intros D1 D2. apply (C102_runs [D1; D2] em2_new 2 {| weight := 1; src := [1%N]; trg := [1%N; 2%N] |}); [intros p [<-|[<-|[]]] _; cbn; lra|left; reflexivity|split; cbn; lia]. Qed.
(** C103: filtering keeps exactly the wanted records, unchanged and in order, provided every wanted key is in the table *)
Definition key_lt (a b : N * N) : Prop := (fst a < fst b)%N \/ (fst a = fst b /\ (snd a < snd b)%N).
Lemma key_lt_ok : forall a b, key_lt a b -> kltk lt_word lt_word a b.
Proof. intros a b [H|[H1 H2]]; [left; apply N.ltb_lt, H|right; split; [exact H1|apply N.ltb_lt, H2]]. Qed.
Theorem C103_filter : forall tab filt, strictly_sorted lt_word lt_word tab -> StronglySorted key_lt filt -> (forall s t, In (s, t) filt -> has tab s t) ->
  let out := filter_tool N.eq_dec N.eq_dec tab filt in strictly_sorted lt_word lt_word out /\ forall r, In r out <-> In r tab /\ In (rs r, rt r) filt.
Proof.
  intros tab filt S0 Sf H out. unfold out. rewrite (filter_ok lt_word lt_word N.eq_dec N.eq_dec ord_word ord_word tab filt S0).
  - split; [apply filter_strict, S0|]. intros r. rewrite filter_In. unfold wanted. destruct (in_dec _ _ _) as [I|I]; unfold key in I; intuition discriminate.
  - clear -Sf. induction Sf as [|a l Sf IH F]; constructor; [exact IH|]. eapply Forall_impl; [|exact F]. apply key_lt_ok.
  - intros [s t] K. destruct (H s t K) as (r & R & <- & <-). apply in_map_iff. exists r. split; [reflexivity|exact R].
Qed.
Print Assumptions C103_filter.
(** a wanted key that is not in the table makes the tool drop everything that follows, although it is wanted *)
Theorem C103_missing_key_refuted : forall s t filt tab, ~ has tab s t -> filter_tool N.eq_dec N.eq_dec tab ((s, t) :: filt) = [].
Proof.
  intros s t filt tab. induction tab as [|r tab IH]; intros H; [reflexivity|]. cbn [filter_tool].
  assert (X : filter_tool N.eq_dec N.eq_dec tab ((s, t) :: filt) = []) by (apply IH; intros (r' & R & R'); apply H; exists r'; split; [right; exact R|exact R']).
  destruct (N.eq_dec (rs r) s) as [E1|]; [|exact X]. destruct (N.eq_dec (rt r) t) as [E2|]; [|exact X]. exfalso. apply H. exists r. split; [left; reflexivity|auto].
Qed.
Print Assumptions C103_missing_key_refuted.
Example C103_nonvacuous : let tab := [cr 1 1 0 1; cr 1 2 1 1; cr 3 1 0 0] in let filt := [(1, 2); (3, 1)]%N in
  strictly_sorted lt_word lt_word tab /\ StronglySorted key_lt filt /\ (forall s t, In (s, t) filt -> has tab s t) /\ filter_tool N.eq_dec N.eq_dec tab filt = [cr 1 2 1 1; cr 3 1 0 0].
Proof.
  intros tab filt. split; [unfold strictly_sorted; repeat (apply SSorted_cons || apply SSorted_nil || apply Forall_cons || apply Forall_nil); cbn; auto|]. split; [repeat (apply SSorted_cons || apply SSorted_nil || apply Forall_cons || apply Forall_nil); unfold key_lt; cbn; lia|]. split; [|reflexivity].
  intros s t [E|[E|[]]]; inversion E; subst; [exists (cr 1 2 1 1)|exists (cr 3 1 0 0)]; cbn; auto.
Qed.
(** C104: pruning keeps for every source word its n most frequent targets among those of relative frequency at least c, with totals that make the
    probabilities of the kept targets sum up to one *)
Theorem C104_prune : forall n c f out, strictly_sorted lt_word lt_word f -> (forall r, In r f -> finite (rn r)) -> prune_tool N.eq_dec n c f out -> is_pruned N.eq_dec n c f out.
Proof. intros. eapply (prune_correct lt_word lt_word N.eq_dec ord_word ord_word); eassumption. Qed.
Print Assumptions C104_prune.
Theorem C104_normalised : forall n c f out r, strictly_sorted lt_word lt_word f -> (forall r, In r f -> finite (rn r)) -> prune_tool N.eq_dec n c f out -> In r out ->
  sumf (fun x => if N.eq_dec (rs x) (rs r) then lgexp (rn x) / lgexp (rd x) else 0) out = 1.
Proof.
  intros n c f out r S0 Fn P Hr. destruct (C104_prune n c f out S0 Fn P) as (_ & _ & _ & _ & _ & _ & T). destruct (T r Hr) as ([x Ex] & E).
  rewrite (sumf_ext _ (fun y => (if N.eq_dec (rs y) (rs r) then lgexp (rn y) else 0) * / mass N.eq_dec out (rs r))).
  - rewrite sumf_scal_r. fold (mass N.eq_dec out (rs r)). rewrite <- E, Ex. cbn. apply Rinv_r. apply Rgt_not_eq, exp_pos.
  - intros y Hy. destruct (N.eq_dec (rs y) (rs r)) as [Es|]; [|ring]. destruct (T y Hy) as [_ Ey]. rewrite Ey, Es. reflexivity.
Qed.
Print Assumptions C104_normalised.
Example C104_nonvacuous : let f := [cr 1 1 0 0; cr 1 2 1 0] in strictly_sorted lt_word lt_word f /\ (forall r, In r f -> finite (rn r)) /\ prune_tool N.eq_dec 1 0 f [cr 1 2 1 1].
Proof.
  intros f. split; [unfold strictly_sorted; repeat (apply SSorted_cons || apply SSorted_nil || apply Forall_cons || apply Forall_nil); cbn; auto|]. split; [intros r [<-|[<-|[]]]; eexists; reflexivity|].
  exists [[cr 1 2 1 1]]. split; [|reflexivity]. unfold prune_calls. cbn. constructor; [|constructor]. exists [(2%N, Fin 1); (1%N, Fin 0)]. split; [apply perm_swap|]. split.
  - repeat constructor. cbn. destruct (Rlt_dec 1 0); [lra|reflexivity].
  - cbn. match goal with |- context [Rle_dec 0 ?e] => destruct (Rle_dec 0 e) as [|N] end; [reflexivity|]. exfalso. apply N. left. apply exp_pos.
Qed.
