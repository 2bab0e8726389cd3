(** Proofs about scoring. *)
From Coq Require Import ZArith Arith List Bool Lia.
From Verif Require Import DecSpec DecModel DecGapProofs DecHypProofs FeatSpec FeatModel.
Import ListNotations.
Open Scope nat_scope.

Notation pairs := (list (seg * list nat)).
Lemma well_app : forall n a b, well_segmented n (a ++ b) -> well_segmented n a.
Proof.
  intros n a b (F & D). split; [now apply Forall_app in F|]. clear F. induction a as [|x a IH]; [constructor|]. cbn [app] in D. inversion D; subst. constructor; [now apply Forall_app in H1|auto].
Qed.
Lemma well_uncovered : forall n a s b j, well_segmented n (a ++ s :: b) -> in_seg s j -> ~ covered a j.
Proof.
  intros n a s b j (_ & D) I (t & T & J). induction a as [|x a IH]; [destruct T|]. cbn [app] in D. inversion D; subst. destruct T as [->|T]; [|auto].
  rewrite Forall_forall in H1. apply (H1 s (in_elt _ _ _) j). auto.
Qed.
Lemma all_covered_iff : forall n ss, all_covered n ss = true <-> forall j, 1 <= j <= n -> covered ss j.
Proof.
  intros n ss. unfold all_covered. rewrite forallb_forall. split.
  - intros A j J. apply covb_spec. apply A. apply in_seq. lia.
  - intros A j J. apply in_seq in J. apply covb_spec, A. lia.
Qed.
Lemma full_iff : forall n ss, well_segmented n ss -> (srcWordsCovered ss =? n) = all_covered n ss.
Proof.
  intros n ss W. pose proof (complete_iff n {| ntarget := []; segs := ss; cuts := [] |} W) as C. cbn [segs] in C. unfold isComplete, numberOfUncoveredSrcWords in C. cbn [segs] in C.
  pose proof (well_seg_le _ _ W) as L. rewrite usub_ok in C by lia. rewrite <- all_covered_iff in C.
  destruct (Nat.eqb_spec (srcWordsCovered ss) n) as [E|E], (all_covered n ss); auto.
  - symmetry. apply C. apply Nat.eqb_eq. lia.
  - destruct C as [_ C]. specialize (C eq_refl). apply Nat.eqb_eq in C. lia.
Qed.
Lemma slice_mid : forall A (a b c : list A), slice (a ++ b ++ c) (length a) (length b) = Some b.
Proof.
  intros A a b. revert a. induction b as [|x b IH]; intros a c; [reflexivity|]. cbn [length slice app]. rewrite nth_error_app2, Nat.sub_diag by lia. cbn [nth_error].
  specialize (IH (a ++ [x]) c). rewrite app_length, <- app_assoc in IH. cbn [length app] in IH. rewrite Nat.add_1_r in IH. now rewrite IH.
Qed.
Lemma bounds_of : forall (a : pairs) p b, trg_bounds (hyp_of (a ++ p :: b)) (length a) = Some (S (tlen a), tlen a + length (snd p)).
Proof.
  intros a p b. unfold trg_bounds. cbn [hyp_of cuts]. rewrite lens_nth, Nat.add_0_l. pose proof (lens_prev _ a (p :: b)) as P. destruct (length a =? 0); [injection P as P; now rewrite <- P|now rewrite P].
Qed.
Lemma phrase_of : forall (a : pairs) p b, trg_phrase (hyp_of (a ++ p :: b)) (length a) = Some (snd p).
Proof.
  intros a p b. unfold trg_phrase. rewrite bounds_of. replace (tlen a + length (snd p) + 1 - S (tlen a)) with (length (snd p)) by lia. cbn [hyp_of ntarget]. rewrite flat_map_app. cbn [flat_map].
  exact (slice_mid _ (0 :: flat_map snd a) (snd p) (flat_map snd b)).
Qed.
Lemma len_of : forall (a : pairs) p b, trg_len (hyp_of (a ++ p :: b)) (length a) = Some (length (snd p)).
Proof. intros a p b. unfold trg_len. rewrite bounds_of, usub_ok by lia. f_equal. lia. Qed.
Lemma seg_of : forall (a : pairs) p b, nth_error (segs (hyp_of (a ++ p :: b))) (length a) = Some (fst p).
Proof. intros a p b. cbn [hyp_of segs]. rewrite map_app. cbn [map]. rewrite nth_error_app2, map_length, Nat.sub_diag; [reflexivity|rewrite map_length; lia]. Qed.
Lemma ngram_spec : forall lp ws st, getNgramScoreGivenState lp ws st = (lm_score lp st ws, history st ws).
Proof. intros lp. induction ws as [|w ws IH]; intro st; [reflexivity|]. cbn [getNgramScoreGivenState lm_score history fold_left]. rewrite IH. reflexivity. Qed.
Lemma history_app : forall a b st, history st (a ++ b) = history (history st a) b.
Proof. intros. unfold history. apply fold_left_app. Qed.
Lemma lm_score_app : forall lp a b st, lm_score lp st (a ++ b) = (lm_score lp st a + lm_score lp (history st a) b)%Z.
Proof. intros lp. induction a as [|x a IH]; intros b st; [reflexivity|]. cbn [app lm_score]. rewrite IH. unfold history. cbn [fold_left]. lia. Qed.
(** the next translated word *)
Lemma next_fold : forall (ss : list seg) left n, let m := fold_left (fun nx s => if (left <? fst s) && (fst s <? nx) then fst s else nx) ss n in
  m <= n /\ (m = n \/ exists s, In s ss /\ fst s = m /\ left < m) /\ (forall s, In s ss -> left < fst s -> m <= fst s).
Proof.
  intros ss left. induction ss as [|x ss IH]; intro n; cbn [fold_left]; [split; [lia|]; split; [now left|intros s []]|].
  destruct ((left <? fst x) && (fst x <? n)) eqn:E.
  - apply andb_true_iff in E. destruct E as [E1 E2]. apply Nat.ltb_lt in E1, E2. destruct (IH (fst x)) as (A & B & C). split; [lia|]. split.
    + right. destruct B as [B|(s & S & T & U)]; [exists x; split; [now left|lia]|exists s; split; [now right|auto]].
    + intros s [<-|S] L; [lia|auto].
  - destruct (IH n) as (A & B & C). split; [lia|]. split; [destruct B as [B|(s & S & T & U)]; [now left|right; exists s; split; [now right|auto]]|].
    intros s [<-|S] L; [|auto]. apply andb_false_iff in E. rewrite !Nat.ltb_ge in E. lia.
Qed.
Lemma gap_right_char : forall (src : list nat) done left, let n := length src in let g := gap_right src done left in
  ((forall j, left < j <= n -> ~ covered done j) /\ g = n) \/ (left < g <= n /\ covered done g /\ forall j, left < j < g -> ~ covered done j).
Proof.
  intros src done left n g. unfold g, gap_right. fold n.
  assert (X : forall k a, ((forall j, a <= j < a + k -> ~ covered done j) /\ hd n (filter (covb done) (seq a k)) = n) \/
    (let g := hd n (filter (covb done) (seq a k)) in a <= g < a + k /\ covered done g /\ forall j, a <= j < g -> ~ covered done j)).
  { induction k as [|k IH]; intro a; [left; split; [intros; lia|reflexivity]|]. cbn [seq filter]. destruct (covb done a) eqn:E.
    - right. cbn [hd]. apply covb_spec in E. split; [lia|]. split; [auto|intros; lia].
    - assert (NC : ~ covered done a) by (intro C; apply covb_spec in C; congruence).
      destruct (IH (S a)) as [(A & B)|(A & B & C)].
      + left. split; [|exact B]. intros j J. destruct (Nat.eq_dec j a) as [->|]; [auto|apply A; lia].
      + right. split; [lia|]. split; [exact B|]. intros j J. destruct (Nat.eq_dec j a) as [->|]; [auto|apply C; lia]. }
  destruct (X (n - left) (left + 1)) as [(A & B)|(A & B & C)].
  - left. split; [intros j J; apply A; lia|exact B].
  - right. unfold covb in *. split; [lia|]. split; [exact B|intros j J; apply C; lia].
Qed.
Lemma gap_right_spec : forall (src : list nat) (done rest : list seg) left, Forall (fun s => 1 <= fst s <= snd s /\ snd s <= length src) done -> left <= length src -> ~ covered done left ->
  nextGapStart (length done) left (length src) (done ++ rest) = gap_right src done left.
Proof.
  intros src done rest left F L NC. unfold nextGapStart. rewrite firstn_app, firstn_all, Nat.sub_diag. cbn [firstn]. rewrite app_nil_r. rewrite Forall_forall in F.
  pose proof (next_fold done left (length src)) as NF. cbv zeta in NF. match goal with |- ?x = _ => set (m := x) in * end. destruct NF as (A & B & C).
  assert (CV : forall s, In s done -> covered done (fst s)) by (intros s S; exists s; split; auto; specialize (F s S); unfold in_seg; lia).
  destruct (gap_right_char src done left) as [(G1 & G2)|(G1 & (s & S & I) & G3)].
  - rewrite G2. destruct B as [B|(s & S & T & U)]; [auto|]. exfalso. apply (G1 (fst s)); [lia|auto].
  - set (g := gap_right src done left) in *. assert (LS : left < fst s). { destruct (Nat.le_gt_cases (fst s) left) as [X|]; auto. exfalso. apply NC. exists s. unfold in_seg in *. split; [auto|lia]. }
    assert (fst s = g). { unfold in_seg in I. destruct (Nat.eq_dec (fst s) g); auto. exfalso. apply (G3 (fst s)); [lia|auto]. }
    pose proof (C s S LS). destruct B as [B|(s' & S' & T & U)]; [lia|]. destruct (Nat.le_gt_cases g m); [lia|]. exfalso. apply (G3 m); [lia|]. rewrite <- T. auto.
Qed.

Section F.
Variable src : list nat.
Notation n := (length src).
Notation iterScore := (iterScore src).
Notation ext_iter := (ext_iter src).
(** what the loop body is worth *)
Definition seg_val (f : feature) (a : pairs) (p : seg * list nat) : Z :=
  match f with
  | FLang bos lp _ _ => lm_score lp (history bos (words_of a)) (snd p)
  | FWordPen _ sumwp => (sumwp (tlen a + length (snd p))%nat - sumwp (tlen a))%Z
  | _ => segment_score src f a p
  end.
Definition tl_ok (f : feature) (a : pairs) (t : nat) : Prop := match f with FWordPen _ _ | FTrgLen _ => t = tlen a | _ => True end.
Definition st_ok (f : feature) (a : pairs) (st0 st : list nat) : Prop := match f with FLang bos _ _ _ => st = history bos (words_of a) | _ => st = st0 end.
Lemma src_phrase_of : forall s, 1 <= fst s <= snd s -> snd s <= n -> srcPhrase src s = Some (src_phrase src s).
Proof.
  intros s A B. unfold srcPhrase, src_phrase, seg_len. destruct (Nat.eqb_spec (fst s) 0) as [Z0|Z0]; [lia|]. replace (S (snd s) - fst s) with (snd s + 1 - fst s) by lia.
  pose proof (slice_mid _ (firstn (fst s - 1) src) (firstn (snd s + 1 - fst s) (skipn (fst s - 1) src)) (skipn (snd s + 1 - fst s) (skipn (fst s - 1) src))) as X.
  rewrite !firstn_skipn in X. rewrite !firstn_length, skipn_length in X. replace (Nat.min (fst s - 1) n) with (fst s - 1) in X by lia. replace (Nat.min (snd s + 1 - fst s) (n - (fst s - 1))) with (snd s + 1 - fst s) in X by lia. exact X.
Qed.
Lemma iter_ok : forall f (a : pairs) p b t st0 st, well_segmented n (map fst (a ++ p :: b)) -> tl_ok f a t -> st_ok f a st0 st ->
  exists t' st', iterScore f (hyp_of (a ++ p :: b)) (length a) t st = Some (seg_val f a p, t', st') /\ tl_ok f (a ++ [p]) t' /\ st_ok f (a ++ [p]) st0 st'.
Proof.
  intros f a p b t st0 st W T SS. unfold FeatModel.iterScore. rewrite seg_of, ?len_of, ?phrase_of.
  rewrite map_app in W. cbn [map] in W. assert (R : 1 <= fst (fst p) <= snd (fst p) /\ snd (fst p) <= n) by (destruct W as (F & _); rewrite Forall_forall in F; apply F, in_elt).
  assert (LA : tlen (a ++ [p]) = tlen a + length (snd p)) by (rewrite flat_map_app, app_length; cbn [flat_map]; now rewrite app_nil_r).
  destruct f; cbn [tl_ok st_ok seg_val segment_score] in *.
  - rewrite ngram_spec. subst st. do 2 eexists. split; [reflexivity|]. split; [exact I|]. unfold words_of. rewrite flat_map_app, history_app. cbn [flat_map]. now rewrite app_nil_r.
  - subst t. do 2 eexists. split; [reflexivity|]. split; [auto|auto].
  - rewrite src_phrase_of by lia. do 2 eexists. split; [reflexivity|]. auto.
  - assert (E : (if 0 <? length a then option_map snd (nth_error (segs (hyp_of (a ++ p :: b))) (length a - 1)) else Some 0) = Some (match a with [] => 0 | _ => snd (last (map fst a) (0, 0)) end)).
    { destruct a as [|x a] using rev_ind; [reflexivity|]. rewrite app_length. cbn [length]. destruct (Nat.ltb_spec 0 (length a + 1)); [|lia]. replace (length a + 1 - 1) with (length a) by lia.
      cbn [hyp_of segs]. rewrite <- app_assoc, map_app. cbn [app map]. rewrite nth_error_app2 by (rewrite map_length; lia). rewrite map_length, Nat.sub_diag. cbn [nth_error option_map]. rewrite map_app. cbn [map]. rewrite last_last.
      destruct (a ++ [x]) eqn:Q; [now apply app_eq_nil in Q|reflexivity]. }
    rewrite E. assert (DD : forall x y, Z.to_nat (Z.abs (Z.of_nat x - (Z.of_nat y + 1))) = dist_abs x (S y)) by (intros; unfold dist_abs; lia). rewrite DD. exists t, st. split; [|auto]. destruct a as [|y a]; reflexivity.
  - rewrite usub_ok.
    + cbn [hyp_of segs]. rewrite map_app. cbn [map]. replace (length a) with (length (map fst a)) by apply map_length.
      rewrite gap_right_spec; [|destruct (well_app _ _ _ W); auto|lia|eapply well_uncovered; [exact W|unfold in_seg; lia]]. do 2 eexists. split; [reflexivity|auto].
    + cbn [hyp_of segs]. rewrite map_app. cbn [map]. replace (length a) with (length (map fst a)) by apply map_length.
      rewrite gap_right_spec; [|destruct (well_app _ _ _ W); auto|lia|eapply well_uncovered; [exact W|unfold in_seg; lia]].
      destruct (gap_right_char src (map fst a) (fst (fst p))) as [(_ & G)|(G & _)]; [rewrite G; lia|lia].
  - rewrite usub_ok by lia. exists t, st. split; [|auto]. unfold seg_len. replace (snd (fst p) + 1 - fst (fst p)) with (S (snd (fst p)) - fst (fst p)) by lia. reflexivity.
  - subst t. do 2 eexists. split; [reflexivity|]. auto.
Qed.
Fixpoint vals (f : feature) (a todo : pairs) : Z := match todo with [] => 0%Z | p :: r => (seg_val f a p + vals f (a ++ [p]) r)%Z end.
Lemma ext_ok : forall f w todo (a : pairs) t st0 st u sc, well_segmented n (map fst (a ++ todo)) -> tl_ok f a t -> st_ok f a st0 st ->
  exists t' st', ext_iter f w (hyp_of (a ++ todo)) (seq (length a) (length todo)) t st u sc = Some ((u + vals f a todo)%Z, (sc + w * vals f a todo)%Z, t', st') /\ tl_ok f (a ++ todo) t' /\ st_ok f (a ++ todo) st0 st'.
Proof.
  intros f w. induction todo as [|p todo IH]; intros a t st0 st u sc W T S; cbn [length seq FeatModel.ext_iter vals].
  - rewrite app_nil_r. exists t, st. split; [f_equal; f_equal; f_equal; f_equal; lia|auto].
  - destruct (iter_ok f a p todo t st0 st W T S) as (t1 & st1 & E & T1 & S1). rewrite E.
    destruct (IH (a ++ [p]) t1 st0 st1 (u + seg_val f a p)%Z (sc + w * seg_val f a p)%Z) as (t2 & st2 & E2 & T2 & S2); [now rewrite <- app_assoc|auto|auto|].
    rewrite app_length in E2. cbn [length] in E2. rewrite Nat.add_1_r, <- !app_assoc in *. cbn [app] in *. exists t2, st2. split; [|auto]. rewrite E2. do 4 f_equal; lia.
Qed.
(** value of a partial translation without the end of the sentence *)
Definition part (f : feature) (ps : pairs) : Z :=
  (segments_score src f [] ps + match f with FLang bos lp _ _ => lm_score lp bos (words_of ps) | FWordPen _ sumwp => sumwp (length (words_of ps)) | _ => 0 end)%Z.
Definition fin (f : feature) (ps : pairs) : Z :=
  if all_covered n (map fst ps) then match f with FLang bos _ lpend _ => lpend (history bos (words_of ps)) | FWordPen wp sumwp => (wp (length (words_of ps)) - sumwp (length (words_of ps)))%Z | _ => 0%Z end else 0%Z.
Lemma feature_part : forall f ps, feature_score src f ps = (part f ps + fin f ps)%Z.
Proof. intros f ps. unfold feature_score, part, fin, sentence_score. destruct (all_covered n (map fst ps)), f; lia. Qed.
Lemma segs_app : forall f b a d, segments_score src f d (a ++ b) = (segments_score src f d a + segments_score src f (d ++ a) b)%Z.
Proof. intros f b. induction a as [|p a IH]; intro d; cbn [app segments_score]; [now rewrite app_nil_r|]. rewrite IH, <- app_assoc. cbn [app]. lia. Qed.
Lemma vals_part : forall f b a, vals f a b = (part f (a ++ b) - part f a)%Z.
Proof.
  intros f. induction b as [|p b IH]; intro a; cbn [vals]; [rewrite app_nil_r; lia|]. rewrite IH, <- app_assoc. cbn [app].
  assert (X : seg_val f a p = (part f (a ++ [p]) - part f a)%Z); [|lia].
  unfold part. rewrite segs_app. cbn [segments_score app]. assert (WA : words_of (a ++ [p]) = words_of a ++ snd p) by (unfold words_of; rewrite flat_map_app; cbn [flat_map]; now rewrite app_nil_r).
  destruct f; cbn [seg_val segment_score]; rewrite ?WA, ?lm_score_app; try lia. rewrite app_length. unfold words_of. lia.
Qed.
Definition hist_after (f : feature) (ps : pairs) (old : list nat) : list nat :=
  match f with FLang bos _ _ eos => history bos (words_of ps ++ if all_covered n (map fst ps) then [eos] else []) | _ => old end.
Lemma mk_res : forall x x' h h' (y y' : Z), x = x' -> h = h' -> y = y' -> Some ({| score := x; lmHist := h |}, y) = Some ({| score := x'; lmHist := h' |}, y').
Proof. now intros; subst. Qed.
Lemma mk_res2 : forall x x' h h' (y y' : list Z), x = x' -> h = h' -> y = y' -> Some ({| score := x; lmHist := h |}, y) = Some ({| score := x'; lmHist := h' |}, y').
Proof. now intros; subst. Qed.
Lemma extension_ok : forall f w s (a b : pairs), well_segmented n (map fst (a ++ b)) ->
  extensionScore src f w s (hyp_of a) (hyp_of (a ++ b)) = Some ({| score := (score s + w * (part f (a ++ b) - part f a + fin f (a ++ b)))%Z; lmHist := hist_after f (a ++ b) (lmHist s) |},
    (part f (a ++ b) - part f a + fin f (a ++ b))%Z).
Proof.
  intros f w s a b W. unfold extensionScore.
  set (st := match f with FLang bos _ _ _ => _ | _ => lmHist s end).
  assert (S : st_ok f a (lmHist s) st). { unfold st, st_ok. destruct f; try reflexivity. }
  assert (T : tl_ok f a (length (ntarget (hyp_of a)) - 1)). { cbn [hyp_of ntarget length]. unfold tl_ok. destruct f; auto; lia. }
  replace (length (segs (hyp_of a))) with (length a) by (cbn [hyp_of segs]; now rewrite map_length). replace (length (segs (hyp_of (a ++ b))) - length a) with (length b) by (cbn [hyp_of segs]; rewrite map_length, app_length; lia).
  destruct (ext_ok f w b a _ _ _ 0%Z (score s) W T S) as (t' & st' & E & T' & S'). rewrite E. rewrite vals_part. unfold numberOfSrcWordsCovered. cbn [hyp_of segs]. rewrite full_iff by exact W.
  unfold fin, hist_after. destruct f; cbn [st_ok tl_ok] in *; destruct (all_covered n (map fst (a ++ b))); subst; rewrite ?Z.add_0_l, ?Z.add_0_r, ?Z.mul_0_r, ?app_nil_r, ?Z.add_0_r, ?history_app; cbn [score lmHist];
    apply mk_res; unfold words_of; try reflexivity; lia.
Qed.
Lemma part_null : forall f, part f [] = match f with FWordPen _ s => s 0 | _ => 0%Z end.
Proof. intros []; reflexivity. Qed.
Definition hists (fs : list (feature * Z)) (ps : pairs) (old : list nat) : list nat := fold_left (fun h fw => hist_after (fst fw) ps h) fs old.
Lemma incr_loop_ok : forall fs s (a b : pairs), well_segmented n (map fst (a ++ b)) ->
  incr_loop src fs (hyp_of a) (hyp_of (a ++ b)) s = Some ({| score := (score s + weighted fs (fun f => part f (a ++ b) - part f a + fin f (a ++ b)))%Z; lmHist := hists fs (a ++ b) (lmHist s) |},
    map (fun fw => (part (fst fw) (a ++ b) - part (fst fw) a + fin (fst fw) (a ++ b))%Z) fs).
Proof.
  induction fs as [|[f w] fs IH]; intros s a b W; cbn [incr_loop weighted map hists fold_left].
  - rewrite Z.add_0_r. destruct s; reflexivity.
  - rewrite extension_ok by exact W. rewrite IH by exact W. cbn [score lmHist fst]. unfold hists. cbn [fold_left fst]. apply mk_res2; [lia|reflexivity|reflexivity].
Qed.
Lemma weighted_ext : forall fs u v, (forall f, u f = v f) -> weighted fs u = weighted fs v.
Proof. intros fs u v E. induction fs as [|[f w] fs IH]; cbn [weighted]; [auto|]. now rewrite E, IH. Qed.
Lemma weighted_sub : forall fs u v, weighted fs (fun f => u f - v f)%Z = (weighted fs u - weighted fs v)%Z.
Proof. intros fs u v. induction fs as [|[f w] fs IH]; cbn [weighted]; [auto|]. rewrite IH. lia. Qed.
Theorem incr_ok : forall fs s (a b : pairs), well_segmented n (map fst (a ++ b)) -> all_covered n (map fst a) = false ->
  incrScore src fs (hyp_of a) (hyp_of (a ++ b)) s = Some ({| score := (score s + (model_score src fs (a ++ b) - model_score src fs a))%Z; lmHist := hists fs (a ++ b) (lmHist s) |},
    map (fun fw => (feature_score src (fst fw) (a ++ b) - feature_score src (fst fw) a)%Z) fs).
Proof.
  intros fs s a b W N. unfold incrScore. rewrite incr_loop_ok by exact W.
  assert (E : forall f, (part f (a ++ b) - part f a + fin f (a ++ b) = feature_score src f (a ++ b) - feature_score src f a)%Z).
  { intro f. rewrite !feature_part. unfold fin at 3. rewrite N. lia. }
  apply mk_res2; [|reflexivity|].
  - unfold model_score. rewrite <- weighted_sub. f_equal. apply weighted_ext, E.
  - apply map_ext. intros fw. apply E.
Qed.
Theorem null_ok : forall fs, src <> [] -> exists h, nullHypothesisScrComps fs = ({| score := model_score src fs []; lmHist := h |}, map (fun fw => feature_score src (fst fw) []) fs).
Proof.
  intros fs NE. assert (N : all_covered n [] = false). { destruct src; [congruence|reflexivity]. }
  assert (P : forall f, feature_score src f [] = part f []). { intro f. rewrite feature_part. unfold fin. cbn [map]. rewrite N. lia. }
  unfold nullHypothesisScrComps. assert (G : forall fs s c, exists h, fold_left (fun a fw => let '(s, c) := a in let '(s', u) := nullHypScore (fst fw) (snd fw) s in (s', c ++ [u])) fs (s, c) =
    ({| score := (score s + model_score src fs [])%Z; lmHist := h |}, c ++ map (fun fw => feature_score src (fst fw) []) fs)).
  { clear fs. induction fs as [|[f w] fs IH]; intros s c; cbn [fold_left map].
    - exists (lmHist s). rewrite app_nil_r. unfold model_score. cbn [weighted]. rewrite Z.add_0_r. destruct s; reflexivity.
    - destruct (nullHypScore (fst (f, w)) (snd (f, w)) s) as [s1 u] eqn:E. destruct (IH s1 (c ++ [u])) as (h & E2). exists h. rewrite E2. unfold model_score. cbn [weighted fst snd] in *. rewrite <- app_assoc. cbn [app].
      assert (u = feature_score src f [] /\ score s1 = (score s + w * feature_score src f [])%Z) as (-> & ->).
      { rewrite P, part_null. destruct f; cbn in E; inversion E; subst; cbn; split; auto; lia. }
      f_equal. assert (forall x y z, x = y -> {| score := x; lmHist := z |} = {| score := y; lmHist := z |}) as R by (now intros; subst). apply R. lia. }
  destruct (G fs {| score := 0; lmHist := [] |} []) as (h & E). exists h. rewrite E. cbn [score app]. rewrite Z.add_0_l. reflexivity.
Qed.
End F.
