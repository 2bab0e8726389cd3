(** Proofs about log-linear weights and lambda files. *)
From Coq Require Import Ascii String ZArith QArith List Bool Arith Lia.
From Verif Require Import TextSpec TextModel TextProofs VocabModel VocabProofs GfmtModel PmText WgfSpec WgfModel WgfText GfmtText GizaText DescModel DescProofs WeightModel WeightSpec.
Import ListNotations.
Local Open Scope nat_scope.

Lemma list_group_weighted : forall names ws, list_group names ws = weighted names ws.
Proof.
  unfold list_group. induction names as [|n r IH]; intro ws; [reflexivity|]. cbn [length seq map weighted]. f_equal.
  - f_equal. destruct ws; reflexivity.
  - rewrite <- seq_shift, map_map, <- IH. apply map_ext. intro i. destruct ws as [|x ws]; reflexivity.
Qed.
Lemma skipn_tl : forall {A} n (l : list A), skipn (S n) l = tl (skipn n l).
Proof. induction n as [|n IH]; intros [|a l]; auto. cbn [skipn]. rewrite <- IH. destruct l; auto. Qed.
Lemma take_weighted : forall names off w, weighted names (take_weights (length names) off w) = weighted names (skipn off w).
Proof.
  induction names as [|n r IH]; intros off w; [reflexivity|]. unfold take_weights. cbn [length seq map weighted tl]. f_equal.
  - f_equal. rewrite Nat.add_0_r. destruct (Nat.ltb_spec off (length w)) as [L|L].
    + revert w L. induction off as [|off IHo]; intros [|x w] L; cbn in *; try lia; auto. apply IHo. lia.
    + now rewrite skipn_all2.
  - rewrite <- skipn_tl, <- IH. f_equal. unfold take_weights. rewrite <- seq_shift, map_map. apply map_ext. intro i. now rewrite <- Nat.add_succ_comm.
Qed.
Lemma skipn_skipn' : forall {A} b a (l : list A), skipn (a + b) l = skipn b (skipn a l).
Proof. intros A b. induction a as [|a IH]; intros [|x l]; cbn; auto. now destruct b. Qed.
Lemma weighted_app : forall a b w, weighted (a ++ b) w = weighted a w ++ weighted b (skipn (length a) w).
Proof.
  induction a as [|n a IH]; intros b w; [reflexivity|]. cbn [app weighted length]. rewrite IH. cbn [app]. do 3 f_equal. destruct w; [now destruct (length a)|reflexivity].
Qed.
Lemma init_weights : forall w st, getWeights (initFeatWeights w st) = weighted (f_std st ++ f_cus st ++ f_otf st) w.
Proof.
  intros w st. unfold getWeights, initFeatWeights. cbn [f_std f_cus f_otf w_std w_cus w_otf].
  rewrite !list_group_weighted, !take_weighted, !weighted_app, skipn_skipn'. reflexivity.
Qed.
Lemma wrun_features : forall h std cus otf, let st := wrun (linked std cus otf) (rev h) in
  f_std st = std /\ f_cus st = cus /\ f_otf st = last_otf otf h /\ w_def st = last_set h.
Proof.
  intros h std cus otf. induction h as [|o h IH]; [repeat split|]. cbn [rev]. unfold wrun in *. rewrite fold_left_app. cbn [fold_left].
  destruct IH as (A & B & C & D). destruct o as [w|f [|x sw]]; cbn [wstep setWeights pre_trans initFeatWeights f_std f_cus f_otf w_def last_otf last_set]; auto.
Qed.
Lemma weights_in_force : forall h std cus otf,
  getWeights (wrun (linked std cus otf) (rev h)) = weighted (std ++ cus ++ last_otf otf h) (in_force h).
Proof.
  intros h std cus otf. destruct h as [|o h].
  - unfold wrun. cbn [rev fold_left]. unfold getWeights, linked. cbn [f_std f_cus f_otf w_std w_cus w_otf last_otf in_force last_set].
    rewrite !list_group_weighted, !weighted_app, !skipn_nil. reflexivity.
  - destruct (wrun_features h std cus otf) as (A & B & C & D). cbn [rev]. unfold wrun in *. rewrite fold_left_app. cbn [fold_left]. destruct o as [w|f [|x sw]]; cbn [wstep].
    + unfold setWeights. rewrite init_weights. cbn [f_std f_cus f_otf]. rewrite A, B, C. reflexivity.
    + unfold pre_trans. rewrite init_weights. cbn [f_std f_cus f_otf w_def]. rewrite A, B, D. reflexivity.
    + unfold pre_trans. rewrite init_weights. cbn [f_std f_cus f_otf w_def]. rewrite A, B. reflexivity.
Qed.
Lemma weighted_length : forall names w, length (weighted names w) = length names.
Proof. induction names; intro w; cbn; auto. Qed.
Lemma weighted_idem : forall names w, weighted names (map snd (weighted names w)) = weighted names w.
Proof. induction names as [|n r IH]; intro w; [reflexivity|]. cbn [weighted map snd tl]. now rewrite IH. Qed.
Lemma set_got : forall st, getWeights (setWeights (map snd (getWeights st)) st) = getWeights st.
Proof.
  intro st. unfold setWeights. rewrite init_weights. cbn [f_std f_cus f_otf]. unfold getWeights at 1 2. rewrite !list_group_weighted.
  set (a := weighted (f_std st) (w_std st)). set (b := weighted (f_cus st) (w_cus st)). set (c := weighted (f_otf st) (w_otf st)).
  assert (H : forall names1 names2 (l1 l2 : list (str * Q)), length l1 = length names1 -> weighted (names1 ++ names2) (map snd (l1 ++ l2)) = weighted names1 (map snd l1) ++ weighted names2 (map snd l2)).
  { induction names1 as [|n r IH]; intros n2 [|x l1] l2 E; try discriminate; [reflexivity|]. cbn [app map weighted tl]. injection E as E. now rewrite IH. }
  rewrite H by apply weighted_length. rewrite H by apply weighted_length. unfold a, b, c. now rewrite !weighted_idem.
Qed.
Lemma used_listed : forall st, map (featWeight (w_std st)) (seq 0 (length (f_std st))) ++ map (featWeight (w_cus st)) (seq 0 (length (f_cus st))) ++
  map (featWeight (w_otf st)) (seq 0 (length (f_otf st))) = map snd (getWeights st).
Proof. intro st. unfold getWeights, list_group, featWeight. rewrite !map_app, !map_map. reflexivity. Qed.

(** ** lambda files *)
Lemma file_one : forall l, good_line l -> file_lines (l ++ [NL]) = [l].
Proof.
  intros l G. unfold file_lines. assert (E : l ++ [NL] = file_of [l]) by (unfold file_of; cbn; now rewrite app_nil_r). rewrite E, read_lines_ok by (constructor; auto). reflexivity.
Qed.
Lemma lambda_rt : forall a b old, loadSwmLambdas (Some (printSwmLambdas a b)) old = (true, (atof (fmt_g a), atof (fmt_g b))).
Proof.
  intros a b old. unfold loadSwmLambdas, printSwmLambdas.
  assert (E : fmt_g a ++ T " " ++ fmt_g b ++ [NL] = (fmt_g a ++ T " " ++ fmt_g b) ++ [NL]) by now rewrite <- !app_assoc. rewrite E. clear E.
  rewrite file_one by (apply good_app; [apply good_clean, fmt_clean|apply good_app; [exact good_sp|apply good_clean, fmt_clean]]).
  assert (F : flds (fmt_g a ++ T " " ++ fmt_g b) = [fmt_g a; fmt_g b]).
  { change (T " ") with [SP]. cbn [app]. rewrite flds_clean_sp by apply fmt_clean. now rewrite flds_one by apply fmt_clean. }
  rewrite NFv_flds, F. cbn [length Nat.eqb]. rewrite !fld_S, F. reflexivity.
Qed.
Lemma atof_as_printed : forall a, as_printed a (atof (fmt_g a)).
Proof.
  intro a. unfold atof. destruct (fmt_parse a) as (y & E & H). rewrite E. split; [rewrite H; apply shown_near|intro S; rewrite H; now apply shown_exact].
Qed.
Lemma atof_stable : forall a, fmt_g (atof (fmt_g a)) = fmt_g a.
Proof. intro a. unfold atof. destruct (fmt_parse a) as (y & E & H). rewrite E. now apply fmt_stable. Qed.
