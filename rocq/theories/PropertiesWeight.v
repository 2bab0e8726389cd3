(** Weights of the log-linear model: C152-C154. *)
From Coq Require Import Ascii String ZArith QArith List Bool Arith Lia.
From Verif Require Import TextSpec TextModel TextProofs VocabModel GfmtModel PmText WgfSpec WgfText DescModel DescProofs WeightModel WeightSpec WeightProofs.
Import ListNotations.
Local Open Scope nat_scope.

(** C152 : after any history of weight changes and translations (latest first), the model lists every feature once, standard ones first, then the
    custom ones, then those of the sentence translated last, each with its place in the weights in force: the sentence's own weights if it brought
    some, the weights set last otherwise; 1 where they run out *)
Theorem C152_weights_in_force : forall h std cus otf,
  getWeights (wrun (linked std cus otf) (rev h)) = weighted (std ++ cus ++ last_otf otf h) (in_force h).
Proof. exact weights_in_force. Qed.
(** the weights of a sentence do not outlive it *)
Theorem C152_sentence_weights_end : forall h w sw f f' std cus otf,
  getWeights (wrun (linked std cus otf) (h ++ [SetWeights w; PreTrans f sw; PreTrans f' []])) = weighted (std ++ cus ++ f') w.
Proof.
  intros h w sw f f' std cus otf. replace (h ++ [SetWeights w; PreTrans f sw; PreTrans f' []]) with (rev (PreTrans f' [] :: PreTrans f sw :: SetWeights w :: rev h))
    by (cbn [rev]; now rewrite rev_involutive, <- !app_assoc).
  now rewrite weights_in_force.
Qed.
(** hypotheses are scored with the weights listed, and their number is that of the features *)
Theorem C152_weights_used : forall st, getNumWeights st = length (getWeights st) /\
  map (featWeight (w_std st)) (seq 0 (length (f_std st))) ++ map (featWeight (w_cus st)) (seq 0 (length (f_cus st))) ++
  map (featWeight (w_otf st)) (seq 0 (length (f_otf st))) = map snd (getWeights st).
Proof.
  intro st. split; [|apply used_listed]. unfold getNumWeights, getWeights, list_group. rewrite !app_length, !map_length, !seq_length. lia.
Qed.
Example C152_nonvacuous :
  getWeights (wrun (linked [T "lm"; T "tm"] [T "len"] []) [SetWeights [2; 3; 4; 5]%Q; PreTrans [T "d"; T "e"] []]) =
    [(T "lmw", 2%Q); (T "tmw", 3%Q); (T "lenw", 4%Q); (T "dw", 5%Q); (T "ew", 1%Q)] /\
  getWeights (wrun (linked [T "lm"; T "tm"] [T "len"] []) [SetWeights [2; 3; 4; 5]%Q; PreTrans [T "d"] [7]%Q]) =
    [(T "lmw", 7%Q); (T "tmw", 1%Q); (T "lenw", 1%Q); (T "dw", 1%Q)].
Proof. split; reflexivity. Qed.

(** C153 : online training of the weights gives the features, in order, the weights the updater returns for the reference, the sentences of the
    n-best list and the weights listed before; with an empty n-best list every listed weight stays *)
Theorem C153_update : forall update ref nb comps st, nb <> [] ->
  getWeights (onlineTrain update ref nb comps st) = weighted (f_std st ++ f_cus st ++ f_otf st) (update ref (map snd nb) comps (map snd (getWeights st))).
Proof. intros update ref [|x nb] comps st N; [congruence|]. unfold onlineTrain, updateLogLinearWeights, setWeights. now rewrite init_weights. Qed.
Theorem C153_empty_nbest : forall update ref comps st, getWeights (onlineTrain update ref [] comps st) = getWeights st.
Proof. intros. unfold onlineTrain, updateLogLinearWeights. apply set_got. Qed.
(** finding: but after a sentence with its own weights, or with more weights than features at the moment, training on an empty n-best list changes the
    weights of the sentences that follow *)
Theorem C153_empty_nbest_next_refuted : exists st f, forall update ref comps,
  getWeights (pre_trans f [] (onlineTrain update ref [] comps st)) <> getWeights (pre_trans f [] st).
Proof.
  exists (wrun (linked [T "lm"] [] []) [SetWeights [2%Q]; PreTrans [] [7%Q]]), []. intros update ref comps. vm_compute. discriminate.
Qed.
Theorem C153_surplus_weights_refuted : exists w f, forall update ref comps,
  getWeights (pre_trans f [] (onlineTrain update ref [] comps (setWeights w (linked [T "lm"] [] [])))) <>
  getWeights (pre_trans f [] (setWeights w (linked [T "lm"] [] []))).
Proof. exists [2; 3]%Q, [T "d"]. intros update ref comps. vm_compute. discriminate. Qed.
(** when no sentence has weights of its own and there is one weight for each feature, it changes nothing that follows *)
Theorem C153_empty_nbest_next : forall update ref comps std cus otf w f, length w = length (std ++ cus ++ otf) -> let st := setWeights w (linked std cus otf) in
  getWeights (pre_trans f [] (onlineTrain update ref [] comps st)) = getWeights (pre_trans f [] st).
Proof.
  intros update ref comps std cus otf w f E st. unfold st, onlineTrain, updateLogLinearWeights, pre_trans, setWeights. rewrite !init_weights.
  cbn [f_std f_cus f_otf w_def initFeatWeights linked]. f_equal. clear - E.
  revert w E. induction (std ++ cus ++ otf) as [|n r IH]; intros [|x w] E; try discriminate; [reflexivity|]. cbn [weighted map snd tl]. f_equal. apply IH. now injection E.
Qed.
Example C153_nonvacuous :
  getWeights (onlineTrain (fun _ _ _ w => map (fun x => x + 1)%Q w) (T "r") [(0%Q, T "h")] [[0%Q]] (setWeights [2; 3]%Q (linked [T "lm"] [T "len"] []))) =
  [(T "lmw", 3%Q); (T "lenw", 4%Q)].
Proof. reflexivity. Qed.

(** C154 : a file of interpolation weights that was printed is read as it was printed: six significant digits of each weight, in the same order;
    printing what was read writes the same file *)
Theorem C154_lambda_files : forall a b old, exists a' b', loadSwmLambdas (Some (printSwmLambdas a b)) old = (true, (a', b')) /\
  as_printed a a' /\ as_printed b b' /\ printSwmLambdas a' b' = printSwmLambdas a b.
Proof.
  intros a b old. exists (atof (fmt_g a)), (atof (fmt_g b)). split; [apply lambda_rt|]. split; [apply atof_as_printed|]. split; [apply atof_as_printed|].
  unfold printSwmLambdas. now rewrite !atof_stable.
Qed.
(** only the first line counts: two fields are the two weights, a single field is both; anything else, and a missing or empty file, is an error that
    leaves the weights alone *)
Theorem C154_lambda_lines : forall f old,
  match file_lines f with
  | [] => loadSwmLambdas (Some f) old = (false, old)
  | l :: _ => match flds l with
              | [x] => loadSwmLambdas (Some f) old = (true, (atof x, atof x))
              | [x; y] => loadSwmLambdas (Some f) old = (true, (atof x, atof y))
              | _ => loadSwmLambdas (Some f) old = (false, old)
              end
  end.
Proof.
  intros f old. unfold loadSwmLambdas. destruct (file_lines f) as [|l r]; [reflexivity|]. rewrite NFv_flds.
  destruct (flds l) as [|x [|y [|z u]]] eqn:E; cbn [length Nat.eqb]; rewrite ?fld_S, ?E; reflexivity.
Qed.
Theorem C154_missing_file : forall old, loadSwmLambdas None old = (false, old).
Proof. reflexivity. Qed.
Example C154_nonvacuous : printSwmLambdas (1#3) (3#4) = T "0.333333 0.75" ++ [NL] /\
  fst (loadSwmLambdas (Some (T "0.5" ++ [NL])) (0, 0)%Q) = true /\ loadSwmLambdas (Some (T "1 2 3" ++ [NL])) (0, 0)%Q = (false, (0, 0)%Q).
Proof. vm_compute. repeat split. Qed.
Print Assumptions C152_weights_in_force.
Print Assumptions C152_sentence_weights_end.
Print Assumptions C152_weights_used.
Print Assumptions C153_update.
Print Assumptions C153_empty_nbest.
Print Assumptions C153_empty_nbest_next_refuted.
Print Assumptions C153_surplus_weights_refuted.
Print Assumptions C153_empty_nbest_next.
Print Assumptions C154_lambda_files.
Print Assumptions C154_lambda_lines.
Print Assumptions C154_missing_file.
