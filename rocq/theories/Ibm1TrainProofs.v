From Coq Require Import Reals NArith Arith List Bool Lra Lia Permutation.
From Verif Require Import AMap MathModel LogNum LogNumProofs RSums Ibm1Spec Ibm1Model Ibm1QueryProofs Ibm1EmProofs.
Import ListNotations.
Open Scope R_scope.
Lemma len_ok : forall p, sentenceLengthIsOk (src p) && sentenceLengthIsOk (trg p) = true <-> usable p.
Proof.
  intros p. unfold usable, sentenceLengthIsOk. rewrite andb_true_iff. destruct (src p), (trg p); cbn [length];
  rewrite ?Nat.leb_le; split; intros; try (destruct H; discriminate); try lia.
Qed.
(** ---- events of one pair *)
Definition ev_at (w : R) (old : option (list (list R))) (new : list (list R)) (ns ts : list N) (q : nat * nat) : ev :=
  ((nth (snd q) ns 0%N, nth (fst q) ts 0%N),
   (weighted_curr w (match old with Some m => Some (cell m (fst q) (snd q)) | None => None end), weighted_new w (cell new (fst q) (snd q)))).
Definition evs_of w old new ns ts : list ev := map (ev_at w old new ns ts) (positions ns ts).
Lemma gather_fill : forall w old new ns ts aux, gather w old new ns ts aux = fold_left fill (evs_of w old new ns ts) aux.
Proof.
  intros. unfold gather, evs_of, positions. revert aux. generalize (flat_map (fun j => map (fun i => (j, i)) (seq 0 (length ns))) (seq 0 (length ts))). intros l.
  induction l as [|q l IH]; intros aux; [reflexivity|]. cbn [fold_left map]. rewrite IH. f_equal.
Qed.
Lemma wcurr_some : forall w a, weighted_curr w (Some a) <> NaN /\ lgexp (weighted_curr w (Some a)) = at_least_1e6 (w * a).
Proof.
  intros w a. unfold weighted_curr, at_least_1e6, SMOOTHING_WEIGHTED_ANJI. destruct (Rlt_dec (w * a) (/ 1000000)).
  - rewrite lgln_pos by lra. split; [discriminate|]. cbn. rewrite exp_ln by lra. rewrite Rmax_right; lra.
  - rewrite lgln_pos by lra. split; [discriminate|]. cbn. rewrite exp_ln by lra. rewrite Rmax_left; lra.
Qed.
Lemma wnew_pos : forall w a, 0 < w -> 0 < a -> (exists r, weighted_new w a = Fin r) /\ lgexp (weighted_new w a) = at_least_1e6 (w * a).
Proof.
  intros w a Hw Ha. assert (0 < w * a) by (apply Rmult_lt_0_compat; assumption). unfold weighted_new, at_least_1e6, SMOOTHING_WEIGHTED_ANJI.
  destruct (Req_EM_T (w * a) 0); [lra|]. destruct (Rlt_dec (w * a) (/ 1000000)).
  - rewrite lgln_pos by lra. split; [eexists; reflexivity|]. cbn. rewrite exp_ln by lra. rewrite Rmax_right; lra.
  - rewrite lgln_pos by lra. split; [eexists; reflexivity|]. cbn. rewrite exp_ln by lra. rewrite Rmax_left; lra.
Qed.
Lemma cell_pos : forall T ns ts j i, ns <> [] -> (j < length ts)%nat -> (i < length ns)%nat -> 0 < cell (anji_aux T ns ts) j i.
Proof.
  intros T ns ts j i Hn Hj Hi. unfold cell, anji_aux. rewrite (nth_indep _ [] (anji_row T ns 0%N)) by (now rewrite map_length). rewrite (map_nth (anji_row T ns)).
  destruct (anji_row_sum T ns (nth j ts 0%N) Hn) as (_ & A & B). apply A, nth_In. now rewrite B.
Qed.
Lemma positions_in : forall ns ts j i, In (j, i) (positions ns ts) <-> (j < length ts /\ i < length ns)%nat.
Proof.
  intros. unfold positions. rewrite in_flat_map. split.
  - intros (x & Hx & H). rewrite in_map_iff in H. destruct H as (y & E & Hy). inversion E; subst. rewrite in_seq in *. lia.
  - intros [A B]. exists j. rewrite in_seq. split; [lia|]. apply in_map_iff. exists i. rewrite in_seq. split; [reflexivity|lia].
Qed.
Definition new_of (T : lextabR) (p : pair) : list (list R) := anji_aux T (with_null (src p)) (trg p).
Lemma sumf_filter : forall {A} (f : A -> R) g l, sumf f (filter g l) = sumf (fun x => if g x then f x else 0) l.
Proof. intros A f g l. induction l as [|x l IH]; cbn; [reflexivity|]. destruct (g x); cbn; rewrite IH; lra. Qed.
Lemma key_test : forall a b s t : N, (if pairdec (a, b) (s, t) then true else false) = (N.eqb a s && N.eqb b t)%bool.
Proof. intros. destruct (pairdec (a, b) (s, t)) as [E|E]; destruct (N.eqb_spec a s), (N.eqb_spec b t); subst; cbn; try reflexivity; congruence. Qed.
Lemma evs_news : forall T p old s t, 0 < weight p ->
  news (s, t) (evs_of (weight p) old (new_of T p) (with_null (src p)) (trg p)) = pair_count p (new_of T p) s t.
Proof.
  intros T p old s t Hw. unfold news, evs_of, pair_count, occ. rewrite sumf_map, sumf_filter. apply sumf_ext. intros [j i] Hq. apply positions_in in Hq as [Hj Hi].
  unfold at_key, ev_at. cbn [fst snd]. rewrite <- key_test. destruct (pairdec _ _); [|reflexivity]. apply (wnew_pos (weight p)); [exact Hw|]. apply cell_pos; [discriminate|exact Hj|exact Hi].
Qed.
Lemma evs_curs : forall p old new s t,
  curs (s, t) (evs_of (weight p) old new (with_null (src p)) (trg p)) = match old with Some m => pair_count p m s t | None => 0 end.
Proof.
  intros p old new s t. unfold curs, evs_of. rewrite sumf_map. destruct old as [m|].
  - unfold pair_count, occ. rewrite sumf_filter. apply sumf_ext. intros [j i] _. unfold at_key, ev_at. cbn [fst snd]. rewrite <- key_test. destruct (pairdec _ _); [|reflexivity]. apply wcurr_some.
  - transitivity (sumf (fun _ : nat * nat => 0) (positions (with_null (src p)) (trg p))); [|apply sumf_0]. apply sumf_ext. intros q _. unfold at_key, ev_at. cbn [fst snd]. match goal with |- context [pairdec ?a ?b] => destruct (pairdec a b) end; reflexivity.
Qed.
Lemma evs_ok : forall T p old, 0 < weight p -> Forall ok_ev (evs_of (weight p) old (new_of T p) (with_null (src p)) (trg p)).
Proof.
  intros T p old Hw. rewrite Forall_forall. intros e He. unfold evs_of in He. rewrite in_map_iff in He. destruct He as ([j i] & <- & Hq). apply positions_in in Hq as [Hj Hi].
  split; cbn [ev_at fst snd].
  - destruct old; [apply wcurr_some|discriminate].
  - apply wnew_pos; [exact Hw|]. apply cell_pos; [discriminate|exact Hj|exact Hi].
Qed.
Lemma evs_keys : forall w old new ns ts s t, (exists e, In e (evs_of w old new ns ts) /\ fst e = (s, t)) <-> occ ns ts s t <> [].
Proof.
  intros. unfold evs_of, occ. split.
  - intros (e & He & E). rewrite in_map_iff in He. destruct He as (q & <- & Hq). cbn in E. inversion E. intros Z.
    assert (I : In q (filter (fun q => (N.eqb (nth (snd q) ns 0%N) s && N.eqb (nth (fst q) ts 0%N) t)%bool) (positions ns ts))).
    { apply filter_In. split; [exact Hq|]. rewrite H0, H1, !N.eqb_refl. reflexivity. }
    rewrite H0, H1 in Z. rewrite Z in I. destruct I.
  - intros H. destruct (filter _ _) as [|q l] eqn:E; [congruence|]. assert (I : In q (q :: l)) by (left; reflexivity). rewrite <- E in I. apply filter_In in I as [I1 I2].
    apply andb_true_iff in I2 as [A B]. apply N.eqb_eq in A, B. exists (ev_at w old new ns ts q). split; [apply in_map, I1|]. cbn. congruence.
Qed.
Lemma pair_count_nonneg : forall p m s t, 0 <= pair_count p m s t.
Proof. intros. apply sumf_nonneg. intros q _. unfold at_least_1e6. pose proof (Rmax_r (weight p * nth (snd q) (nth (fst q) m []) 0) (/ 1000000)). lra. Qed.
Lemma pair_count_pos : forall p m s t, occ (with_null (src p)) (trg p) s t <> [] -> 0 < pair_count p m s t.
Proof.
  intros p m s t H. unfold pair_count. destruct (occ _ _ _ _) as [|q l]; [congruence|]. cbn [sumf]. set (f := fun q : nat * nat => at_least_1e6 (weight p * nth (snd q) (nth (fst q) m []) 0)).
  change (0 < f q + sumf f l). assert (F : forall q, / 1000000 <= f q) by (intros; unfold f, at_least_1e6; apply Rmax_r). pose proof (F q). assert (0 <= sumf f l) by (apply sumf_nonneg; intros x _; pose proof (F x); lra). lra.
Qed.
Lemma pair_count_zero : forall p m s t, occ (with_null (src p)) (trg p) s t = [] -> pair_count p m s t = 0.
Proof. intros p m s t H. unfold pair_count. now rewrite H. Qed.
(** ---- one pass over the sentence pairs *)
Section PASS.
Variable D : list pair.
Variable E0 : em.
Hypothesis wpos : forall p, In p D -> usable p -> 0 < weight p.
Definition oldof (E : em) (n : nat) : option (list (list R)) := if keep E then aget Nat.eq_dec n (store E) else None.
Definition store_ok (E : em) : Prop := forall n, oldof E n <> None -> (n < length D)%nat /\ usable (nth n D no_pair).
Definition old_c (k : N * N) (n : nat) : R := match oldof E0 n with Some m => pair_count (nth n D no_pair) m (fst k) (snd k) | None => 0 end.
Definition usableb (n : nat) : bool := sentenceLengthIsOk (src (nth n D no_pair)) && sentenceLengthIsOk (trg (nth n D no_pair)).
Definition new_c (k : N * N) (n : nat) : R := if usableb n then pair_count (nth n D no_pair) (new_of (tab E0) (nth n D no_pair)) (fst k) (snd k) else 0.
Record pass (l : list nat) (E : em) (aux : auxvar) : Prop := {
  pa_tab : tab E = tab E0; pa_keep : keep E = keep E0;
  pa_store : forall n, oldof E n = if (keep E0 && (if in_dec Nat.eq_dec n l then true else false) && usableb n)%bool then Some (new_of (tab E0) (nth n D no_pair)) else oldof E0 n;
  pa_evs : exists evs, aux_inv aux evs /\ (forall k, curs k evs = sumf (old_c k) l) /\ (forall k, news k evs = sumf (new_c k) l) /\
     (forall s t, (exists e, In e evs /\ fst e = (s, t)) <-> exists n, In n l /\ usable (nth n D no_pair) /\ occ (with_null (src (nth n D no_pair))) (trg (nth n D no_pair)) s t <> []) }.
Lemma pass_nil : pass [] E0 [].
Proof.
  constructor; [reflexivity..| |].
  - intros n. cbn. rewrite andb_false_r. reflexivity.
  - exists []. split; [split; [constructor|intros k; cbn; tauto]|]. split; [reflexivity|]. split; [reflexivity|]. intros. split; intros (x & Hx & _); destruct Hx.
Qed.
Definition step (st : em * auxvar) (n : nat) : em * auxvar :=
  let p := nth n D no_pair in if sentenceLengthIsOk (src p) && sentenceLengthIsOk (trg p) then calc_anji (fst st) n p (snd st) else st.
Lemma pass_step : forall l E aux n, store_ok E0 -> pass l E aux -> ~ In n l -> (n < length D)%nat -> pass (l ++ [n]) (fst (step (E, aux) n)) (snd (step (E, aux) n)).
Proof.
  intros l E aux n So P Hn Hd. unfold step. cbn [fst snd]. fold (usableb n). destruct (usableb n) eqn:U.
  - assert (Us : usable (nth n D no_pair)) by (apply len_ok; exact U). assert (Hw : 0 < weight (nth n D no_pair)) by (apply wpos; [apply nth_In; exact Hd|exact Us]).
    unfold calc_anji. cbn [fst snd]. change (addNullWord (src (nth n D no_pair))) with (with_null (src (nth n D no_pair))). rewrite (pa_tab _ _ _ P). fold (new_of (tab E0) (nth n D no_pair)).
    fold (oldof E n). assert (Eo : oldof E n = oldof E0 n).
    { rewrite (pa_store _ _ _ P). destruct (in_dec Nat.eq_dec n l); [contradiction|]. rewrite andb_false_r. reflexivity. }
    rewrite Eo, gather_fill. constructor; cbn [tab keep store].
    + reflexivity.
    + apply (pa_keep _ _ _ P).
    + intros n'. unfold oldof at 1. cbn [keep store]. pose proof (pa_store _ _ _ P n') as Q. unfold oldof in Q at 1. rewrite (pa_keep _ _ _ P) in *. destruct (keep E0); cbn [andb] in *; [|exact Q].
      rewrite aget_aset. destruct (Nat.eq_dec n' n) as [->|Nn].
      * destruct (in_dec Nat.eq_dec n (l ++ [n])) as [_|I]; [|exfalso; apply I, in_or_app; right; left; reflexivity]. rewrite U. reflexivity.
      * rewrite Q. destruct (in_dec Nat.eq_dec n' l) as [I|I]; destruct (in_dec Nat.eq_dec n' (l ++ [n])) as [I'|I']; try reflexivity.
        -- exfalso. apply I', in_or_app. left. exact I.
        -- exfalso. apply in_app_or in I'. destruct I' as [I'|[I'|[]]]; congruence.
    + destruct (pa_evs _ _ _ P) as (evs & A & C & Nw & K). eexists. split; [apply fill_all; [exact A|apply evs_ok; exact Hw]|].
      split; [|split].
      * intros [s t]. unfold curs in *. rewrite !sumf_app, C. f_equal. cbn [sumf]. rewrite Rplus_0_r. fold (curs (s, t) (evs_of (weight (nth n D no_pair)) (oldof E0 n) (new_of (tab E0) (nth n D no_pair)) (with_null (src (nth n D no_pair))) (trg (nth n D no_pair)))).
        rewrite evs_curs. reflexivity.
      * intros [s t]. unfold news in *. rewrite !sumf_app, Nw. f_equal. cbn [sumf]. rewrite Rplus_0_r. fold (news (s, t) (evs_of (weight (nth n D no_pair)) (oldof E0 n) (new_of (tab E0) (nth n D no_pair)) (with_null (src (nth n D no_pair))) (trg (nth n D no_pair)))).
        rewrite evs_news by exact Hw. unfold new_c. rewrite U. reflexivity.
      * intros s t. split.
        -- intros (e & He & Ek). rewrite in_app_iff in He. destruct He as [He|He].
           ++ destruct (proj1 (K s t) (ex_intro _ e (conj He Ek))) as (n' & A1 & A2). exists n'. split; [apply in_or_app; left; exact A1|exact A2].
           ++ exists n. split; [apply in_or_app; right; left; reflexivity|]. split; [exact Us|]. eapply evs_keys. exists e. split; [exact He|exact Ek].
        -- intros (n' & I & A1 & A2). apply in_app_or in I. destruct I as [I|[<-|[]]].
           ++ destruct (proj2 (K s t) (ex_intro _ n' (conj I (conj A1 A2)))) as (e & He & Ek). exists e. split; [apply in_or_app; left; exact He|exact Ek].
           ++ eapply evs_keys in A2. destruct A2 as (e & He & Ek). exists e. split; [apply in_or_app; right; exact He|exact Ek].
  - constructor; cbn [fst snd]; [apply P|apply P| |].
    + intros n'. rewrite (pa_store _ _ _ P). destruct (in_dec Nat.eq_dec n' l) as [I|I]; destruct (in_dec Nat.eq_dec n' (l ++ [n])) as [I'|I']; try reflexivity.
      -- exfalso. apply I', in_or_app. left. exact I.
      -- apply in_app_or in I'. destruct I' as [I'|[<-|[]]]; [contradiction|]. rewrite U, !andb_false_r. reflexivity.
    + destruct (pa_evs _ _ _ P) as (evs & A & C & Nw & K). exists evs. split; [exact A|].
      assert (On : oldof E0 n = None). { destruct (oldof E0 n) eqn:Q; [|reflexivity]. exfalso. destruct (So n) as [_ X]; [congruence|]. apply len_ok in X. unfold usableb in U. congruence. }
      split; [|split].
      * intros k. rewrite C, sumf_app. cbn [sumf]. unfold old_c at 3. rewrite On. lra.
      * intros k. rewrite Nw, sumf_app. cbn [sumf]. unfold new_c at 3. rewrite U. lra.
      * intros s t. rewrite K. split; intros (n' & I & A1 & A2).
        -- exists n'. split; [apply in_or_app; left; exact I|auto].
        -- apply in_app_or in I. destruct I as [I|[<-|[]]]; [exists n'; auto|]. exfalso. apply len_ok in A1. unfold usableb in U. congruence.
Qed.
Lemma pass_all : forall l' l E aux, store_ok E0 -> pass l E aux -> NoDup (l ++ l') -> (forall n, In n l' -> (n < length D)%nat) ->
  pass (l ++ l') (fst (fold_left step l' (E, aux))) (snd (fold_left step l' (E, aux))).
Proof.
  induction l' as [|n l' IH]; intros l E aux So P ND Hr; cbn [fold_left]; [rewrite app_nil_r; exact P|].
  assert (Nn : ~ In n l). { apply NoDup_remove_2 in ND. intros I. apply ND, in_or_app. auto. }
  pose proof (pass_step l E aux n So P Nn (Hr n (or_introl eq_refl))) as P1. destruct (step (E, aux) n) as [E1 aux1]. cbn [fst snd] in P1.
  replace (l ++ n :: l') with ((l ++ [n]) ++ l') by (rewrite <- app_assoc; reflexivity). apply IH; [exact So|exact P1|rewrite <- app_assoc; exact ND|]. intros; apply Hr; right; assumption.
Qed.
Lemma suff_pass : forall range, store_ok E0 -> NoDup range -> (forall n, In n range -> (n < length D)%nat) ->
  exists E aux, calcNewLocalSuffStats D range E0 [] = (E, aux) /\ pass range E aux.
Proof.
  intros range So ND Hr. unfold calcNewLocalSuffStats. change (fun (st : em * auxvar) (n : nat) => _) with step.
  pose proof (pass_all range [] E0 [] So pass_nil ND Hr) as P. eexists _, _. split; [apply surjective_pairing|exact P].
Qed.
End PASS.
(** ---- sums over sentence numbers *)
Lemma sumf_sub : forall {A} (f : A -> R) l l', NoDup l -> incl l l' -> (forall n, 0 <= f n) -> sumf f l <= sumf f l'.
Proof.
  intros A f l l' ND. revert l'. induction ND as [|x l Hx ND IH]; intros l' I P; [apply sumf_nonneg; auto|].
  destruct (in_split x l' (I x (or_introl eq_refl))) as (l1 & l2 & ->). rewrite sumf_app. cbn [sumf].
  assert (sumf f l <= sumf f (l1 ++ l2)). { apply IH; [|exact P]. intros y Hy. specialize (I y (or_intror Hy)). rewrite in_app_iff in *. cbn in I. destruct I as [I|[<-|I]]; [auto|contradiction|auto]. }
  rewrite sumf_app in H. lra.
Qed.
Lemma sumf_change : forall (f g : nat -> R) l l', NoDup l -> NoDup l' -> incl l l' -> (forall n, ~ In n l -> f n = g n) -> sumf f l' = sumf g l' - sumf g l + sumf f l.
Proof.
  intros f g l l' ND. revert f l'. induction ND as [|x l Hx ND IH]; intros f l' ND' I P; cbn [sumf].
  - rewrite (sumf_ext f g); [lra|]. intros n _. apply P. tauto.
  - set (h := fun n => if Nat.eq_dec n x then g n else f n).
    assert (E : sumf h l' = sumf g l' - sumf g l + sumf h l).
    { apply IH; [exact ND'|intros y Hy; apply I; right; exact Hy|]. intros n Hn. unfold h. destruct (Nat.eq_dec n x); [reflexivity|]. apply P. intros [->|]; tauto. }
    assert (Eh : sumf h l = sumf f l). { apply sumf_ext. intros n Hn. unfold h. destruct (Nat.eq_dec n x); [subst; contradiction|reflexivity]. }
    assert (El : sumf f l' = sumf h l' - g x + f x).
    { destruct (in_split x l' (I x (or_introl eq_refl))) as (l1 & l2 & ->). apply NoDup_remove_2 in ND'. rewrite !sumf_app. cbn [sumf].
      rewrite (sumf_ext h f l1), (sumf_ext h f l2).
      - unfold h. destruct (Nat.eq_dec x x); [lra|congruence].
      - intros n Hn. unfold h. destruct (Nat.eq_dec n x); [subst; exfalso; apply ND', in_or_app; auto|reflexivity].
      - intros n Hn. unfold h. destruct (Nat.eq_dec n x); [subst; exfalso; apply ND', in_or_app; auto|reflexivity]. }
    lra.
Qed.

(** ---- a training pass *)
Definition ex_of (E : em) : nat -> option (list (list R)) := oldof E.
Definition cooc (p : pair) (s t : N) : Prop := occ (with_null (src p)) (trg p) s t <> [].
(** the state reached by incremental training: the table holds the counts of the stored expectations *)
Record trained (D : list pair) (E : em) : Prop := {
  tr_keep : keep E = true; tr_inv : tab_inv (tab E); tr_store : store_ok D E;
  tr_num : forall s t, numv (tab E) s t = counts D (oldof E) s t;
  tr_has : forall s t, getLexNumer (tab E) s t <> None <-> exists n, oldof E n <> None /\ cooc (nth n D no_pair) s t }.
Lemma trained_new : forall D, trained D em_new.
Proof.
  intros D. constructor; [reflexivity|apply tab_inv_empty|intros n H; exfalso; apply H; reflexivity| |].
  - intros s t. unfold counts. rewrite (sumf_ext _ (fun _ => 0)); [rewrite sumf_0; reflexivity|]. reflexivity.
  - intros s t. split; [intros H; exfalso; apply H; reflexivity|]. intros (n & H & _). exfalso. apply H. reflexivity.
Qed.
Lemma aux_in : forall aux evs k c n, aux_inv aux evs -> In (k, (c, n)) aux -> c <> NaN /\ (exists r, n = Fin r) /\ lgexp c = curs k evs /\ lgexp n = news k evs.
Proof. intros aux evs k c n [W I] H. specialize (I k). rewrite (aget_in pairdec _ _ _ W H) in I. exact I. Qed.
Lemma in_seq0 : forall n len, In n (seq 0 len) <-> (n < len)%nat.
Proof. intros. rewrite in_seq. lia. Qed.
Lemma train_pass : forall D range E, (forall p, In p D -> usable p -> 0 < weight p) -> trained D E -> NoDup range -> (forall n, In n range -> (n < length D)%nat) ->
  trained D (trainSentPairRange D range E) /\
  (forall n, oldof (trainSentPairRange D range E) n = if ((if in_dec Nat.eq_dec n range then true else false) && usableb D n)%bool then Some (new_of (tab E) (nth n D no_pair)) else oldof E n).
Proof.
  intros D range E Wp Tr ND Hr. destruct (suff_pass D E Wp range (tr_store _ _ Tr) ND Hr) as (E1 & aux & Es & P). unfold trainSentPairRange. rewrite Es.
  pose proof (tr_keep _ _ Tr) as K. destruct (pa_evs _ _ _ _ _ P) as (evs & Ai & Ec & En & Ek).
  set (E2 := {| tab := updatePars (tab E1) aux; keep := keep E1; store := store E1 |}).
  assert (Eo : forall n, oldof E2 n = if ((if in_dec Nat.eq_dec n range then true else false) && usableb D n)%bool then Some (new_of (tab E) (nth n D no_pair)) else oldof E n).
  { intros n. pose proof (pa_store _ _ _ _ _ P n) as Q. rewrite K in Q. cbn [andb] in Q. rewrite <- Q. reflexivity. }
  split; [|exact Eo].
  assert (Inc : incl range (seq 0 (length D))) by (intros n Hn; apply in_seq0; auto).
  assert (Cn : forall k, 0 <= sumf (old_c D E k) range <= counts D (oldof E) (fst k) (snd k)).
  { intros k. assert (P0 : forall n, 0 <= old_c D E k n) by (intros n; unfold old_c; destruct (oldof E n); [apply pair_count_nonneg|lra]). split; [apply sumf_nonneg; auto|].
    apply (sumf_sub (old_c D E k)); [exact ND|exact Inc|exact P0]. }
  assert (Hu : forall k c n, In (k, (c, n)) aux -> c <> NaN /\ (exists r, n = Fin r) /\ lgexp c <= numv (tab E) (fst k) (snd k)).
  { intros k c n Hk. destruct (aux_in _ _ _ _ _ Ai Hk) as (A & B & C & _). split; [exact A|]. split; [exact B|]. rewrite C, Ec, (tr_num _ _ Tr). apply Cn. }
  pose proof (pa_tab _ _ _ _ _ P) as Et.
  destruct (update_all aux (tab E) (proj1 Ai) (tr_inv _ _ Tr) Hu) as (I2 & V2 & H2). rewrite <- Et in I2, V2, H2.
  assert (V3 : forall s t, numv (updatePars (tab E1) aux) s t = numv (tab E) s t - sumf (old_c D E (s, t)) range + sumf (new_c D E (s, t)) range).
  { intros s t. rewrite V2. rewrite Et. destruct Ai as [W I]. specialize (I (s, t)). destruct (aget pairdec (s, t) aux) as [[c n]|].
    - destruct I as (_ & _ & -> & ->). rewrite Ec, En. reflexivity.
    - rewrite <- Ec, <- En. unfold curs, news. rewrite !at_none by exact I. lra. }
  constructor.
  - cbn. rewrite (pa_keep _ _ _ _ _ P). exact K.
  - exact I2.
  - intros n. rewrite Eo. destruct (in_dec Nat.eq_dec n range) as [I|I]; cbn [andb]; [|apply (tr_store _ _ Tr)].
    destruct (usableb D n) eqn:U; [|apply (tr_store _ _ Tr)]. intros _. split; [apply Hr, I|apply len_ok, U].
  - intros s t. cbn [tab]. rewrite V3, (tr_num _ _ Tr). unfold counts.
    set (f := fun n => match oldof E2 n with Some m => pair_count (nth n D no_pair) m s t | None => 0 end).
    change (fun n => match oldof E n with Some m => pair_count (nth n D no_pair) m s t | None => 0 end) with (old_c D E (s, t)).
    rewrite (sumf_change f (old_c D E (s, t)) range (seq 0 (length D)) ND (seq_NoDup _ _) Inc).
    + f_equal. apply sumf_ext. intros n Hn. unfold f, new_c. rewrite Eo. destruct (in_dec Nat.eq_dec n range); [|contradiction]. cbn [andb fst snd]. destruct (usableb D n) eqn:U; [reflexivity|].
      destruct (oldof E n) eqn:Q; [|reflexivity]. exfalso. destruct (tr_store _ _ Tr n) as [_ X]; [congruence|]. apply len_ok in X. unfold usableb in U. congruence.
    + intros n Hn. unfold f, old_c. rewrite Eo. destruct (in_dec Nat.eq_dec n range); [contradiction|]. reflexivity.
  - intros s t. change (tab E2) with (updatePars (tab E1) aux). rewrite H2, Et, (tr_has _ _ Tr). split.
    + intros [(n & A & B)|(c & n & A & B)].
      * exists n. split; [|exact B]. rewrite Eo. destruct (_ && _)%bool; [discriminate|exact A].
      * destruct (proj1 (Ek s t)) as (n' & I & U & O).
        { destruct Ai as [W I]. pose proof (aget_some_in _ _ _ _ A) as X. specialize (I (s, t)). rewrite A in I. destruct I as (_ & [r Hr'] & _ & Hnn). subst n.
          destruct (existsb (fun e : ev => if pairdec (fst e) (s, t) then true else false) evs) eqn:Q.
          - apply existsb_exists in Q as (e & He & Z). exists e. split; [exact He|]. destruct (pairdec (fst e) (s, t)); [assumption|discriminate].
          - exfalso. assert (Z : news (s, t) evs = 0).
            { apply at_none. intros e He Eq. assert (Y : existsb (fun e : ev => if pairdec (fst e) (s, t) then true else false) evs = true); [|congruence].
              apply existsb_exists. exists e. split; [exact He|]. rewrite Eq. destruct (pairdec (s, t) (s, t)); congruence. }
            rewrite Z in Hnn. cbn in Hnn. pose proof (exp_pos r). lra. }
        exists n'. split; [|exact O]. rewrite Eo. destruct (in_dec Nat.eq_dec n' range); [|contradiction]. apply len_ok in U. unfold usableb. rewrite U. discriminate.
    + intros (n & A & B). rewrite Eo in A. destruct (in_dec Nat.eq_dec n range) as [I|I]; cbn [andb] in A; [|left; exists n; auto].
      destruct (usableb D n) eqn:U; [|left; exists n; auto].
      destruct (proj2 (Ek s t)) as (e & He & Eq). { exists n. split; [exact I|]. split; [apply len_ok, U|exact B]. }
      destruct Ai as [W Iv]. specialize (Iv (s, t)). destruct (aget pairdec (s, t) aux) as [[c m]|]; [|exfalso; exact (Iv e He Eq)].
      destruct Iv as (_ & [r ->] & Cc & _). destruct (lgneqb c (Fin r)) eqn:Q.
      * right. exists c, (Fin r). split; [reflexivity|]. intros ->. cbn in Q. destruct (Req_EM_T r r); congruence.
      * left. assert (X : c = Fin r).
        { destruct c; cbn in Q; try discriminate. destruct (Req_EM_T r0 r); [congruence|discriminate]. }
        subst c. apply (tr_has _ _ Tr). intros G. assert (numv (tab E) s t = 0) by (unfold numv; rewrite G; reflexivity).
        rewrite (tr_num _ _ Tr) in H. pose proof (Cn (s, t)) as Y. rewrite <- Ec, <- Cc in Y. cbn [fst snd lgexp] in Y. pose proof (exp_pos r). lra.
Qed.
(** ---- relative frequencies *)
Lemma sum_point : forall (ts : list N) t0 v, NoDup ts -> In t0 ts -> sumf (fun t => if N.eq_dec t t0 then v else 0) ts = v.
Proof.
  intros ts t0 v ND. induction ND as [|x l Hx ND IH]; intros I; [destruct I|]. cbn [sumf]. destruct (N.eq_dec x t0) as [->|Nx].
  - rewrite (sumf_ext _ (fun _ => 0)); [rewrite sumf_0; lra|]. intros y Hy. destruct (N.eq_dec y t0); [subst; contradiction|reflexivity].
  - destruct I as [->|I]; [congruence|]. rewrite IH by exact I. lra.
Qed.
Lemma by_target : forall s ts (l : list ((N * N) * lg)), awf l -> NoDup ts -> (forall t, aget pairdec (s, t) l <> None -> In t ts) ->
  sumf (of_src s) l = sumf (fun t => match aget pairdec (s, t) l with Some v => lgexp v | None => 0 end) ts.
Proof.
  intros s ts l W ND. induction l as [|[[s' t'] v] l IH]; intros H; [cbn; symmetry; apply sumf_0|]. cbn [sumf]. inversion W as [|? ? Nin W']; subst.
  assert (G : aget pairdec (s', t') l = None) by (apply aget_none; exact Nin).
  rewrite IH.
  - unfold of_src. cbn [fst snd]. destruct (N.eq_dec s' s) as [->|Ns].
    + assert (I : In t' ts) by (apply H; cbn [aget]; destruct (pairdec (s, t') (s, t')); [discriminate|congruence]).
      rewrite <- (sum_point ts t' (lgexp v) ND I) at 1. rewrite <- sumf_plus. apply sumf_ext. intros t _. cbn [aget]. destruct (N.eq_dec t t') as [->|Nt].
      * rewrite G. destruct (pairdec (s, t') (s, t')); [lra|congruence].
      * destruct (pairdec (s, t) (s, t')); [congruence|lra].
    + rewrite Rplus_0_l. apply sumf_ext. intros t _. cbn [aget]. destruct (pairdec (s, t) (s', t')); [congruence|reflexivity].
  - exact W'.
  - intros t Ht. apply H. cbn [aget]. destruct (pairdec (s, t) (s', t')); [discriminate|exact Ht].
Qed.
Lemma pts_rel : forall T s t ts, tab_inv T -> NoDup ts -> (forall t, getLexNumer T s t <> None -> In t ts) -> pts T s t = numv T s t / sumf (numv T s) ts.
Proof.
  intros T s t ts I ND H. destruct (pts_val T s t I) as [-> _]. f_equal. rewrite (ti_sum T I). rewrite (by_target s ts _ (ti_wf T I) ND H). reflexivity.
Qed.
(** ---- batch training *)
Lemma training_set_in : forall D range n, In n (training_set D range) <-> In n range /\ usable (nth n D no_pair).
Proof.
  intros. unfold training_set. rewrite filter_In, !andb_true_iff, !Nat.leb_le. unfold usable. tauto.
Qed.
Lemma training_set_sum : forall D range (f : nat -> R), sumf (fun n => if usableb D n then f n else 0) range = sumf f (training_set D range).
Proof.
  intros. unfold training_set. rewrite sumf_filter. apply sumf_ext. intros n _. destruct (usableb D n) eqn:U.
  - apply len_ok in U. destruct U as [[A B] [C E]]. apply Nat.leb_le in A, B, C, E. rewrite A, B, C, E. reflexivity.
  - destruct (_ && _)%bool eqn:Q; [|reflexivity]. exfalso. rewrite !andb_true_iff, !Nat.leb_le in Q. assert (X : usable (nth n D no_pair)) by (unfold usable; tauto). apply len_ok in X. unfold usableb in U. congruence.
Qed.
Lemma batch_pass : forall D range E, (forall p, In p D -> usable p -> 0 < weight p) -> NoDup range -> (forall n, In n range -> (n < length D)%nat) ->
  let T' := tab (efficientBatchTrainingForRange D range E) in
  tab_inv T' /\ (forall s t, numv T' s t = sumf (fun n => pair_count (nth n D no_pair) (new_of (tab E) (nth n D no_pair)) s t) (training_set D range)) /\
  (forall s t, getLexNumer T' s t <> None <-> exists n, In n (training_set D range) /\ cooc (nth n D no_pair) s t).
Proof.
  intros D range E Wp ND Hr. destruct (suff_pass D (set_expval_maxnsize0 E) Wp range ltac:(intros n H; exfalso; apply H; reflexivity) ND Hr) as (E1 & aux & Es & P).
  unfold efficientBatchTrainingForRange. rewrite Es. cbv zeta. cbn [tab].
  destruct (pa_evs _ _ _ _ _ P) as (evs & Ai & Ec & En & Ek).
  assert (C0 : forall k, curs k evs = 0) by (intros k; rewrite Ec; rewrite (sumf_ext _ (fun _ => 0)) by reflexivity; apply sumf_0).
  assert (Hu : forall k c n, In (k, (c, n)) aux -> c <> NaN /\ (exists r, n = Fin r) /\ lgexp c <= numv tab_empty (fst k) (snd k)).
  { intros k c n Hk. destruct (aux_in _ _ _ _ _ Ai Hk) as (A & B & C & _). split; [exact A|]. split; [exact B|]. rewrite C, C0. unfold numv. cbn. lra. }
  destruct (update_all aux tab_empty (proj1 Ai) tab_inv_empty Hu) as (I2 & V2 & H2). split; [exact I2|]. split.
  - intros s t. rewrite V2. transitivity (sumf (new_c D (set_expval_maxnsize0 E) (s, t)) range); [|unfold new_c; cbn [fst snd]; apply (training_set_sum D range (fun n => pair_count (nth n D no_pair) (new_of (tab E) (nth n D no_pair)) s t))].
    destruct Ai as [W I]. specialize (I (s, t)). destruct (aget pairdec (s, t) aux) as [[c n]|].
    + destruct I as (_ & _ & -> & ->). rewrite C0, En. unfold numv. cbn. lra.
    + rewrite <- En. unfold news. rewrite at_none by exact I. unfold numv. cbn. reflexivity.
  - intros s t. rewrite H2. split.
    + intros [A|(c & n & A & B)]; [exfalso; apply A; reflexivity|].
      destruct (proj1 (Ek s t)) as (n' & I & U & O); [|exists n'; rewrite training_set_in; auto].
      destruct Ai as [W I]. specialize (I (s, t)). rewrite A in I. destruct I as (_ & [r Hr'] & _ & Hnn). subst n.
      destruct (existsb (fun e : ev => if pairdec (fst e) (s, t) then true else false) evs) eqn:Q.
      * apply existsb_exists in Q as (e & He & Z). exists e. split; [exact He|]. destruct (pairdec (fst e) (s, t)); [assumption|discriminate].
      * exfalso. assert (Z : news (s, t) evs = 0).
        { apply at_none. intros e He Eq. assert (Y : existsb (fun e : ev => if pairdec (fst e) (s, t) then true else false) evs = true); [|congruence].
          apply existsb_exists. exists e. split; [exact He|]. rewrite Eq. destruct (pairdec (s, t) (s, t)); congruence. }
        rewrite Z in Hnn. cbn in Hnn. pose proof (exp_pos r). lra.
    + intros (n & I & B). apply training_set_in in I as [I U]. destruct (proj2 (Ek s t)) as (e & He & Eq). { exists n. auto. }
      destruct Ai as [W Iv]. specialize (Iv (s, t)). destruct (aget pairdec (s, t) aux) as [[c m]|]; [|exfalso; exact (Iv e He Eq)].
      destruct Iv as (_ & [r ->] & Cc & _). right. exists c, (Fin r). split; [reflexivity|]. intros ->. rewrite C0 in Cc. cbn in Cc. pose proof (exp_pos r). lra.
Qed.
