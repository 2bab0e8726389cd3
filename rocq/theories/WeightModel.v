(** Log-linear weights of the translation model (src/stack_dec/_pbTransModel.h), their online update (src/stack_dec/WeightUpdateUtils.cc,
    src/stack_dec/ThotDecoder.cc) and the files with the interpolation weights of the single-word models (src/stack_dec/SmtModelUtils.cc).
    Weights (float) are rationals; a feature is represented by its name. *)
From Coq Require Import Ascii String ZArith QArith List Bool Arith.
From Verif Require Import TextSpec TextModel GfmtModel DescModel.
Import ListNotations.
Local Open Scope nat_scope.

(** the features linked (standardFeaturesInfoPtr, customFeaturesInfoPtr, onTheFlyFeaturesInfo: _pbTransModel.h:174-178) and the weight vectors *)
Record wm := mkwm { f_std : list str; f_cus : list str; f_otf : list str; w_def : list Q; w_std : list Q; w_cus : list Q; w_otf : list Q }.
(** DEFAULT_LOGLIN_WEIGHT: _pbTransModel.h:63 *)
Definition DEFAULT_LOGLIN_WEIGHT : Q := 1.
(** one of the three loops of initFeatWeights: push_back of wVec[off+i], or of the default weight *)
Definition take_weights (n off : nat) (wVec : list Q) : list Q :=
  map (fun i => if off + i <? length wVec then nth (off + i) wVec 0%Q else DEFAULT_LOGLIN_WEIGHT) (seq 0 n).
(** initFeatWeights: _pbTransModel.h:1845-1880 *)
Definition initFeatWeights (wVec : list Q) (st : wm) : wm :=
  let ns := length (f_std st) in let nc := length (f_cus st) in
  mkwm (f_std st) (f_cus st) (f_otf st) (w_def st) (take_weights ns 0 wVec) (take_weights nc ns wVec) (take_weights (length (f_otf st)) (ns + nc) wVec).
(** setWeights: _pbTransModel.h:1833-1841 *)
Definition setWeights (wVec : list Q) (st : wm) : wm :=
  initFeatWeights wVec (mkwm (f_std st) (f_cus st) (f_otf st) wVec (w_std st) (w_cus st) (w_otf st)).
(** pre_trans_actions: _pbTransModel.h:478-498; [otf] are the features and [sw] the weights the annotations of the sentence bring (the metadata
    classes in the code bring none: BaseTranslationMetadata.h:86-97; a derived class may) *)
Definition pre_trans (otf : list str) (sw : list Q) (st : wm) : wm :=
  let st := mkwm (f_std st) (f_cus st) otf (w_def st) (w_std st) (w_cus st) (w_otf st) in
  match sw with [] => initFeatWeights (w_def st) st | _ => initFeatWeights sw st end.
(** a cleared model (_pbTransModel.h:449-475) with its features linked (:422-446) *)
Definition linked (std cus otf : list str) : wm := mkwm std cus otf [] [] [] [].
(** getStdFeatWeight, getCustomFeatWeight, getOnTheFlyFeatWeight: _pbTransModel.h:720-747 *)
Definition featWeight (ws : list Q) (i : nat) : Q := if i <? length ws then nth i ws 0%Q else DEFAULT_LOGLIN_WEIGHT.
(** one of the three loops of getWeights *)
Definition list_group (names : list str) (ws : list Q) : list (str * Q) :=
  map (fun i => (nth i names [] ++ T "w", if i <? length ws then nth i ws 0%Q else DEFAULT_LOGLIN_WEIGHT)) (seq 0 (length names)).
(** getWeights: _pbTransModel.h:1884-1927 *)
Definition getWeights (st : wm) : list (str * Q) :=
  list_group (f_std st) (w_std st) ++ list_group (f_cus st) (w_cus st) ++ list_group (f_otf st) (w_otf st).
(** getNumWeights: _pbTransModel.h:1945-1950 *)
Definition getNumWeights (st : wm) : nat := length (f_std st) + length (f_cus st) + length (f_otf st).
(** histories *)
Inductive wop := SetWeights (wVec : list Q) | PreTrans (otf : list str) (sw : list Q).
Definition wstep (st : wm) (o : wop) : wm := match o with SetWeights w => setWeights w st | PreTrans f w => pre_trans f w st end.
Definition wrun (st : wm) (h : list wop) : wm := fold_left wstep h st.

(** updateLogLinearWeights: WeightUpdateUtils.cc:45-100; [update] is the weight updater applied to the reference, the n-best sentences, their score
    components and the current weights *)
Definition updateLogLinearWeights (update : str -> list str -> list (list Q) -> list Q -> list Q) (ref : str) (nblist : list (Q * str))
    (scoreComps : list (list Q)) (compWeights : list (str * Q)) : list Q :=
  let currentWeights := map snd compWeights in
  match nblist with [] => currentWeights | _ => update ref (map snd nblist) scoreComps currentWeights end.
(** onlineTrainLogLinWeights: ThotDecoder.cc:2038-2086, for a given n-best list *)
Definition onlineTrain (update : str -> list str -> list (list Q) -> list Q -> list Q) (ref : str) (nblist : list (Q * str))
    (scoreComps : list (list Q)) (st : wm) : wm :=
  setWeights (updateLogLinearWeights update ref nblist scoreComps (getWeights st)) st.

(** atof *)
Definition atof (s : str) : Q := match atofq s with Some q => q | None => 0%Q end.
(** printSwmLambdas: SmtModelUtils.cc:182-201, the text written *)
Definition printSwmLambdas (lambda_swm lambda_invswm : Q) : str := fmt_g lambda_swm ++ T " " ++ fmt_g lambda_invswm ++ [NL].
(** loadSwmLambdas: SmtModelUtils.cc:135-179; [f]: the file, if it exists; true: THOT_OK; the two weights before and after *)
Definition loadSwmLambdas (f : option str) (old : Q * Q) : bool * (Q * Q) :=
  match f with
  | None => (false, old)
  | Some f => match file_lines f with
              | [] => (false, old)
              | l :: _ => if NFv l =? 1 then (true, (atof (fld l 1), atof (fld l 1)))
                          else if NFv l =? 2 then (true, (atof (fld l 1), atof (fld l 2)))
                          else (false, old)
              end
  end.
