(** C111-C113: numbers in text files, word-graph files, component weights. *)
From Coq Require Import Ascii String Arith ZArith NArith QArith Qpower Qabs List Bool Lia.
From Verif Require Import TextSpec TextModel VocabModel WgModel PmModel GfmtModel GfmtText WgfSpec WgfModel WgfText WgfProofs.
Import ListNotations.
Open Scope nat_scope.

(** C111: a printed number reads back within 5e-6 of it, exactly if it has six digits, and prints as the same text *)
Theorem C111_printed_numbers : forall x, exists y, atofq (fmt_g x) = Some y /\ (Qabs (y - x) <= (5 # 1000000) * Qabs x)%Q /\ (six_digits x -> (y == x)%Q) /\ fmt_g y = fmt_g x.
Proof. intros x. exists (rd x). destruct (rd_printed x) as [A B]. split; [apply rd_ok|]. split; [exact A|]. split; [exact B|apply rd_text]. Qed.
(** C111: the text is one field *)
Theorem C111_one_field : forall x, fmt_g x <> [] /\ ~ In " "%char (fmt_g x) /\ ~ In "010"%char (fmt_g x) /\ ~ In "000"%char (fmt_g x) /\ fmt_g x <> T "|||".
Proof. intros x. destruct (fmt_clean x) as (A & B & C & D). repeat (split; auto). apply nchars_nobar, fmt_chars. Qed.
(** refuted: numbers are not kept exactly *)
Theorem C111_exact_refuted : fmt_g (-123456789 # 10000000) = T "-12.3457" /\ fmt_g 1000001 = T "1e+06" /\ atofq (T "1e+06") = Some 1000000%Q.
Proof. vm_compute. auto. Qed.
Print Assumptions C111_printed_numbers.
Print Assumptions C111_one_field.
Print Assumptions C111_exact_refuted.

(** C112: a word graph printed and loaded back *)
Theorem C112_print_load : forall h g, w_run h w_clear = Some g ->
  Forall (fun w => plain (fst w)) (w_weights g) -> Forall small (w_finals g) -> Forall plain_arc (w_arcs g) ->
  Forall forward (unflagged (w_arcs g) (w_pruned g)) \/ Forall (fun b => b = false) (w_pruned g) ->
  exists text g', w_print g = Some text /\ w_load text = Some g' /\
    Forall2 same_arc (unflagged (w_arcs g) (w_pruned g)) (w_arcs g') /\ Forall (fun b => b = false) (w_pruned g') /\
    (forall s, In s (w_finals g') <-> In s (w_finals g) /\ exists a, In a (unflagged (w_arcs g) (w_pruned g)) /\ f_succ a = s) /\
    Forall2 same_weight (w_weights g) (w_weights g') /\
    (forall s d, nth_error (w_states g') s = Some d -> toPred d = positions f_succ (w_arcs g') s /\ toSucc d = positions f_pred (w_arcs g') s) /\
    (forall a, In a (w_arcs g') -> (f_pred a < length (w_states g') /\ f_succ a < length (w_states g'))%nat) /\
    w_print g' = Some text.
Proof. intros h g R W F A S. exact (print_load h g R (conj W (conj F A)) S). Qed.
(** refuted: the score of the initial state is not in the file *)
Theorem C112_initial_score_refuted : exists g text g', w_run [WArc 0 1 [T "a"] 2 []; WFinal 1; WInit 7] w_clear = Some g /\ w_print g = Some text /\ w_load text = Some g' /\ w_init g = 7%Q /\ w_init g' = 0%Q.
Proof. eexists; eexists; eexists. split; [vm_compute; reflexivity|]. split; [vm_compute; reflexivity|]. split; [vm_compute; reflexivity|]. repeat split; reflexivity. Qed.
(** refuted: a final state without incoming arcs (the initial state of an empty translation) is lost *)
Theorem C112_initial_final_refuted : exists g text g', w_run [WArc 0 1 [T "a"] 2 []; WFinal 0; WFinal 1] w_clear = Some g /\ w_print g = Some text /\ w_load text = Some g' /\ w_finals g = [0; 1] /\ w_finals g' = [1].
Proof. eexists; eexists; eexists. split; [vm_compute; reflexivity|]. split; [vm_compute; reflexivity|]. split; [vm_compute; reflexivity|]. repeat split; reflexivity. Qed.
(** refuted: an arc without components whose first word is "|||" loses its words *)
Theorem C112_separator_refuted : exists g text g', w_run [WArc 0 1 [T "|||"; T "7"] 2 []; WFinal 1] w_clear = Some g /\ w_print g = Some text /\ w_load text = Some g' /\ map f_words (w_arcs g') = [[]].
Proof. eexists; eexists; eexists. split; [vm_compute; reflexivity|]. split; [vm_compute; reflexivity|]. split; [vm_compute; reflexivity|]. repeat split; reflexivity. Qed.
(** refuted: after pruning, a backward arc makes load write outside the state vector *)
Theorem C112_backward_refuted : exists g text, w_run [WArc 0 5 [T "a"] 1 []; WArc 0 1 [T "b"] 1 []; WArc 5 1 [T "c"] 1 []; WFinal 1; WPrune [true; false; false]] w_clear = Some g /\ w_print g = Some text /\ w_load text = None.
Proof. eexists; eexists. split; [vm_compute; reflexivity|]. split; [vm_compute; reflexivity|]. vm_compute. reflexivity. Qed.
Print Assumptions C112_print_load.
Print Assumptions C112_initial_score_refuted.
Print Assumptions C112_initial_final_refuted.
Print Assumptions C112_separator_refuted.
Print Assumptions C112_backward_refuted.

(** C113: new component weights rescore exactly the arcs with that many components *)
Theorem C113_rescoring : forall ws g, w_pruned (w_setCompWeights ws g) = w_pruned g /\ w_finals (w_setCompWeights ws g) = w_finals g /\ w_states (w_setCompWeights ws g) = w_states g /\ w_init (w_setCompWeights ws g) = w_init g /\
  w_weights (w_setCompWeights ws g) = ws /\
  Forall2 (fun a a' => f_pred a' = f_pred a /\ f_succ a' = f_succ a /\ f_words a' = f_words a /\ f_comps a' = f_comps a /\
    (length (f_comps a) = length ws -> (f_score a' == weighted (map snd ws) (f_comps a))%Q) /\ (length (f_comps a) <> length ws -> f_score a' = f_score a)) (w_arcs g) (w_arcs (w_setCompWeights ws g)).
Proof.
  intros ws g. repeat (split; [reflexivity|]). cbn [w_setCompWeights w_arcs]. induction (w_arcs g) as [|a l IH]; [constructor|]. cbn [map]. constructor; [|exact IH].
  destruct (rescored ws (mkfwg [a] [] [] [] 0 []) (rescore_arc ws a)) as (b & [<-|[]] & H); [now left|]. exact H.
Qed.
(** C113: setting the same weights twice changes nothing more; the last weights win *)
Theorem C113_last_weights : forall ws ws' g, (forall a, In a (w_arcs g) -> length (f_comps a) = length ws -> length ws' = length ws) -> w_setCompWeights ws' (w_setCompWeights ws g) = w_setCompWeights ws' g.
Proof.
  intros ws ws' g H. unfold w_setCompWeights. cbn. f_equal. rewrite map_map. apply map_ext_in. intros a Ha. unfold rescore_arc at 2. destruct (Nat.eqb_spec (length (f_comps a)) (length ws)) as [E|E]; [|reflexivity].
  unfold rescore_arc. cbn. rewrite E, (H a Ha E), Nat.eqb_refl. reflexivity.
Qed.
Print Assumptions C113_rescoring.
Print Assumptions C113_last_weights.

(** non-vacuity *)
Definition exw : list wcall := [WArc 0 1 [T "la"; T "casa"] (-123456789 # 10000000) [1 # 1; -5 # 2]; WArc 1 2 [] 3 []; WArc 0 2 [T "|||"] 4 [1 # 1; 2 # 1]; WFinal 2; WWeights [(T "lm", 1 # 2); (T "tm", 1 # 1)]; WPrune [false; true; false]].
Example C111_nonvacuous : six_digits (12345 # 100) /\ fmt_g (12345 # 100) = T "123.45" /\ fmt_g (1 # 3) = T "0.333333" /\ fmt_g (1 # 300000) = T "3.33333e-06".
Proof. split; [exists 12345%Z, (-2)%Z; split; [lia|reflexivity]|]. vm_compute. auto. Qed.
Example C112_nonvacuous : exists g, w_run exw w_clear = Some g /\ Forall (fun w => plain (fst w)) (w_weights g) /\ Forall small (w_finals g) /\ Forall plain_arc (w_arcs g) /\
  Forall forward (unflagged (w_arcs g) (w_pruned g)) /\ length (unflagged (w_arcs g) (w_pruned g)) = 2 /\ exists text, w_print g = Some text.
Proof.
  eexists. split; [reflexivity|]. cbn [w_weights w_finals w_arcs w_pruned]. split; [repeat constructor; cbn; try discriminate; intros H; repeat (destruct H as [H|H]; [discriminate|]); exact H|].
  split; [repeat constructor; unfold small; cbn; lia|]. split.
  - repeat constructor; unfold small; cbn; try lia; try discriminate; intros H; repeat (destruct H as [H|H]; [discriminate|]); try exact H.
  - split; [repeat constructor; unfold forward; cbn; lia|]. split; [reflexivity|]. eexists. vm_compute. reflexivity.
Qed.
Example C113_nonvacuous : exists g, w_run exw w_clear = Some g /\ map f_score (w_arcs g) = map (fun x => x) [acc_score 0 [(T "lm", 1 # 2); (T "tm", 1 # 1)] [1 # 1; -5 # 2]; (3 # 1)%Q; acc_score 0 [(T "lm", 1 # 2); (T "tm", 1 # 1)] [1 # 1; 2 # 1]] /\ (nth 2 (map f_score (w_arcs g)) 0%Q == 5 # 2)%Q.
Proof. eexists. split; [reflexivity|]. split; reflexivity. Qed.
