From Coq Require Import Reals NArith Arith List Bool Lra Lia.
From Verif Require Import AMap MathModel LogNum LogNumProofs RSums EmMath Ibm1Spec AligSpec AligModel Ibm1Model Ibm1QueryProofs Ibm1EmProofs Ibm1TrainProofs Ibm1Likelihood Ibm1SessionProofs Ibm2Spec Ibm2Model NdProofs NdTrain Ibm2QueryProofs.
Import ListNotations.
Open Scope R_scope.
(** ---- the expectation step *)
Definition new2 (L : ltab) (A : atab) (p : pair) : list (list R) := anji_aux2 L A (with_null (src p)) (trg p).
Lemma row2_sum : forall L A ns ts j, ns <> [] -> sumf (fun x => x) (anji_row2 L A ns ts j) = 1 /\ (forall x, In x (anji_row2 L A ns ts j) -> 0 < x <= 1) /\ length (anji_row2 L A ns ts j) = length ns.
Proof.
  intros L A ns ts j H. unfold anji_row2. set (nums := map (fun i => smooth_num (calc_anji_num2 L A ns ts i j)) (seq 0 (length ns))).
  assert (S0 : fold_left Rplus nums 0 = sumf (fun x => x) nums) by (rewrite fold_plus; lra).
  assert (Q : forall d, In d nums -> 0 < d) by (intros d Hd; unfold nums in Hd; rewrite in_map_iff in Hd; destruct Hd as (s & <- & _); apply smooth_pos).
  assert (P : 0 < fold_left Rplus nums 0).
  { rewrite S0. assert (In (smooth_num (calc_anji_num2 L A ns ts 0 j)) nums) by (apply (in_map (fun i => smooth_num (calc_anji_num2 L A ns ts i j))), in_seq; destruct ns; [congruence|cbn; lia]).
    eapply sumf_pos; [intros; left; apply Q; assumption|eassumption|apply smooth_pos]. }
  split; [|split].
  - rewrite sumf_map. rewrite (sumf_ext _ (fun x => x * / fold_left Rplus nums 0)) by reflexivity. rewrite sumf_scal_r, <- S0. field. lra.
  - intros x Hx. rewrite in_map_iff in Hx. destruct Hx as (d & <- & Hd). pose proof (Q d Hd) as Pd.
    split; [apply Rdiv_lt_0_compat; assumption|]. assert (d <= fold_left Rplus nums 0) by (rewrite S0; apply (sumf_ge_one (fun x => x)); [intros y Hy; left; apply Q, Hy|exact Hd]).
    apply Rmult_le_reg_r with (fold_left Rplus nums 0); [exact P|]. unfold Rdiv. rewrite Rmult_assoc, Rinv_l by lra. lra.
  - unfold nums. now rewrite !map_length, seq_length.
Qed.
Lemma nth_map_seq_l : forall {B} (d : B) (f : nat -> B) m j, (j < m)%nat -> nth j (map f (seq 0 m)) d = f j.
Proof. intros B d f m j H. rewrite (nth_indep _ d (f 0%nat)) by (rewrite map_length, seq_length; exact H). rewrite map_nth, seq_nth by exact H. reflexivity. Qed.
Lemma cell2_pos : forall L A p j i, (j < length (trg p))%nat -> (i < length (with_null (src p)))%nat -> 0 < cell (new2 L A p) j i.
Proof.
  intros L A p j i Hj Hi. unfold cell, new2, anji_aux2. rewrite nth_map_seq_l by exact Hj. destruct (row2_sum L A (with_null (src p)) (trg p) j) as (_ & Q & Ln); [discriminate|]. apply Q, nth_In. rewrite Ln. exact Hi.
Qed.
Lemma prob_pos_iff : forall {K1 K2} (d1 : forall a b : K1, {a = b} + {a <> b}) (d2 : forall a b : K2, {a = b} + {a <> b}) T s t, tab_inv d1 d2 T -> (0 < prob d1 d2 T s t <-> getNumer d1 d2 T s t <> None).
Proof.
  intros K1 K2 d1 d2 T s t I. destruct (prob_val d1 d2 T s t I) as [_ B]. split; [|exact B]. intros H G. unfold prob, logprob in H. rewrite G in H. cbn in H. lra.
Qed.
Lemma seen_ok : forall {K1 K2} (d1 : forall a b : K1, {a = b} + {a <> b}) (d2 : forall a b : K2, {a = b} + {a <> b}) T s t, tab_inv d1 d2 T -> seen_prob d1 d2 (1 / 10) T s t = seen_or (prob d1 d2 T s t).
Proof.
  intros K1 K2 d1 d2 T s t I. unfold seen_prob, seen_or. pose proof (prob_pos_iff d1 d2 T s t I) as [X Y]. destruct (getNumer d1 d2 T s t); destruct (Rlt_dec 0 (prob d1 d2 T s t)) as [Q|Q]; try reflexivity.
  - exfalso. apply Q, Y. discriminate.
  - exfalso. apply X in Q. congruence.
Qed.
Notation linv L := (tab_inv N.eq_dec N.eq_dec L).
Notation ainv A := (tab_inv aposdec Nat.eq_dec A).
Lemma estep2_ok : forall L A p, linv L -> ainv A -> new2 L A p = estep2 (pts2 L) (palig A) p.
Proof.
  intros L A p IL IA. unfold new2, anji_aux2, estep2. apply map_ext. intros k. unfold anji_row2.
  assert (E : forall i, smooth_num (calc_anji_num2 L A (with_null (src p)) (trg p) i k) = raw2 (pts2 L) (palig A) p k i).
  { intros i. unfold calc_anji_num2, raw2, ARBITRARY_PTS, ARBITRARY_AP. rewrite !seen_ok by assumption. unfold pts2, palig. change (pred (length (with_null (src p)))) with (length (src p)). rewrite Nat.add_1_r.
    unfold smooth_num, SMOOTHING_ANJI_NUM. destruct (Rlt_dec _ _); [rewrite Rmax_right; lra|rewrite Rmax_left; lra]. }
  rewrite (map_ext _ _ E), map_map. apply map_ext. intros i. f_equal. rewrite fold_plus, sumf_map. apply Rplus_0_l.
Qed.
Lemma seen_or_ext : forall q q' al al' p k i, (forall s t, q s t = q' s t) -> (forall a b, al a b = al' a b) -> raw2 q al p k i = raw2 q' al' p k i.
Proof. intros. unfold raw2. now rewrite H, H0. Qed.
Lemma estep2_ext : forall q q' al al' p, (forall s t, q s t = q' s t) -> (forall a b, al a b = al' a b) -> estep2 q al p = estep2 q' al' p.
Proof.
  intros. unfold estep2. apply map_ext. intros k. apply map_ext. intros i. rewrite (seen_or_ext q q' al al') by assumption. f_equal. apply sumf_ext. intros; now apply seen_or_ext.
Qed.
(** ---- keys *)
Definition kfl (p : pair) (q : nat * nat) : N * N := (nth (snd q) (with_null (src p)) 0%N, nth (fst q) (trg p) 0%N).
Definition kfa (p : pair) (q : nat * nat) : apos * nat := ((fst q + 1, pred (length (with_null (src p))), length (trg p))%nat, snd q).
Lemma gocc_lex : forall p s t, gocc N.eq_dec N.eq_dec kfl p (s, t) = occ (with_null (src p)) (trg p) s t.
Proof.
  intros p s t. unfold gocc, occ, pos_of. apply filter_ext. intros q. unfold kfl. rewrite <- key_test. destruct (pd _ _ _ _), (pairdec _ _); congruence.
Qed.
Lemma gcount_lex : forall p m s t, gcount N.eq_dec N.eq_dec kfl p m (s, t) = pair_count p m s t.
Proof. intros. unfold gcount, pair_count. now rewrite gocc_lex. Qed.
Lemma gocc_alig : forall p k i, gocc aposdec Nat.eq_dec kfa p (k, i) <> [] -> snd (fst k) = length (src p) /\ (i <= length (src p))%nat.
Proof.
  intros p k i H. unfold gocc in H. destruct (filter _ _) as [|q l] eqn:E; [congruence|]. assert (X : In q (q :: l)) by (left; reflexivity). rewrite <- E in X. apply filter_In in X as [X1 X2]. destruct (pd _ _ _ _) as [Q|]; [|discriminate].
  destruct q as [j' i']. unfold pos_of in X1. apply positions_in in X1 as [_ Y]. unfold kfa in Q. inversion Q; subst. cbn in *. split; [reflexivity|lia].
Qed.
Lemma gcount_alig : forall p m k i, gcount aposdec Nat.eq_dec kfa p m (k, i) = alig_count p m k i.
Proof.
  intros p m [[j l] len] i. unfold gcount, gocc, alig_count. rewrite sumf_filter. unfold pos_of, positions. rewrite sumf_flat_map. set (v := fun q : nat * nat => at_least_1e6 (weight p * nth (snd q) (nth (fst q) m []) 0)).
  destruct (Nat.eqb l (length (src p)) && Nat.eqb len (length (trg p)) && Nat.leb 1 j && Nat.leb j len && Nat.leb i l)%bool eqn:C.
  - rewrite !andb_true_iff, !Nat.eqb_eq, !Nat.leb_le in C. destruct C as [[[[-> ->] C1] C2] C3].
    rewrite (sumf_ext _ (fun k => if Nat.eq_dec (pred j) k then v (k, i) else 0)).
    + rewrite (point Nat.eq_dec (seq 0 (length (trg p))) (pred j) (fun k => v (k, i))); [reflexivity|apply seq_NoDup|apply in_seq; lia].
    + intros k Hk. rewrite sumf_map. destruct (Nat.eq_dec (pred j) k) as [<-|Nk].
      * rewrite (sumf_ext _ (fun i' => if Nat.eq_dec i i' then v (pred j, i') else 0)).
        -- apply (point Nat.eq_dec _ i (fun i' => v (pred j, i'))); [apply seq_NoDup|apply in_seq; cbn; lia].
        -- intros i' _. unfold kfa. cbn [fst snd with_null length pred]. destruct (pd _ _ _ _) as [Q|Q], (Nat.eq_dec i i') as [R|R]; try reflexivity; [inversion Q; congruence|]. exfalso. apply Q. subst i'. destruct j; [lia|]. cbn [pred]. rewrite Nat.add_1_r. reflexivity.
      * rewrite (sumf_ext _ (fun _ => 0)); [apply sumf_0|]. intros i' _. unfold kfa. cbn [fst snd]. destruct (pd _ _ _ _) as [Q|Q]; [|reflexivity]. exfalso. inversion Q. lia.
  - rewrite (sumf_ext _ (fun _ => 0)); [apply sumf_0|]. intros k Hk. apply in_seq in Hk. rewrite sumf_map. rewrite (sumf_ext _ (fun _ => 0)); [apply sumf_0|]. intros i' Hi. apply in_seq in Hi. unfold kfa. cbn [fst snd with_null length pred] in *.
    destruct (pd _ _ _ _) as [Q|Q]; [|reflexivity]. exfalso. inversion Q; subst. rewrite !Nat.eqb_refl in C. cbn [andb] in C. rewrite !andb_false_iff, !Nat.leb_gt in C. lia.
Qed.
Lemma gcounts_lex : forall D ex s t, gcounts N.eq_dec N.eq_dec kfl D ex (s, t) = counts D ex s t.
Proof. intros. unfold gcounts, counts. apply sumf_ext. intros n _. destruct (ex n); [apply gcount_lex|reflexivity]. Qed.
Lemma gcounts_alig : forall D ex k i, gcounts aposdec Nat.eq_dec kfa D ex (k, i) = alig_counts D ex k i.
Proof. intros. unfold gcounts, alig_counts. apply sumf_ext. intros n _. destruct (ex n); [apply gcount_alig|reflexivity]. Qed.
(** ---- a pass over a range *)
Definition old2 (E : em2) (n : nat) : option (list (list R)) := if keep2 E then aget Nat.eq_dec n (store2 E) else None.
Section PASS.
Variable D : list pair.
Variable E0 : em2.
Definition nw (n : nat) := new2 (ltb E0) (atb E0) (nth n D no_pair).
Definition lev n := evs kfl weighted_new D (old2 E0) nw n.
Definition aev n := evs kfa weighted_new_alig D (old2 E0) nw n.
Lemma gather2_fill : forall p old new aux, gather2 (weight p) old new (addNullWord (src p)) (trg p) aux
  = (fold_left (fill N.eq_dec N.eq_dec) (evs1 kfl weighted_new old new p) (fst aux), fold_left (fill aposdec Nat.eq_dec) (evs1 kfa weighted_new_alig old new p) (snd aux)).
Proof.
  intros p old new aux. unfold gather2, evs1, pos_of. change (addNullWord (src p)) with (with_null (src p)). fold (positions (with_null (src p)) (trg p)). generalize (positions (with_null (src p)) (trg p)) as l. intros l. revert aux.
  induction l as [|q l IH]; intros [a b]; [reflexivity|]. cbn [fold_left map]. rewrite IH. f_equal.
Qed.
Lemma suff2 : forall range done E aux, ltb E = ltb E0 -> atb E = atb E0 -> keep2 E = keep2 E0 -> NoDup (done ++ range) ->
  (forall n, ~ In n done -> old2 E n = old2 E0 n) -> (forall n, In n done -> old2 E n = if keep2 E0 then ex' D (old2 E0) nw done n else None) ->
  let r := calcNewLocalSuffStats2 D range E aux in
  ltb (fst r) = ltb E0 /\ atb (fst r) = atb E0 /\ keep2 (fst r) = keep2 E0 /\
  (forall n, old2 (fst r) n = if keep2 E0 then ex' D (old2 E0) nw (done ++ range) n else None) /\
  snd r = (fold_left (fill N.eq_dec N.eq_dec) (flat_map lev range) (fst aux), fold_left (fill aposdec Nat.eq_dec) (flat_map aev range) (snd aux)).
Proof.
  induction range as [|n range IH]; intros done E aux Hl Ha Hk ND O1 O2.
  - cbn. rewrite app_nil_r. repeat (split; [assumption|]). split; [|destruct aux; reflexivity]. intros n. destruct (in_dec Nat.eq_dec n done) as [I|I]; [apply O2, I|]. rewrite O1 by exact I. unfold old2 at 1. destruct (keep2 E0) eqn:K; [|reflexivity].
    unfold ex'. destruct (in_dec Nat.eq_dec n done); [contradiction|]. cbn [andb]. unfold old2. rewrite K. reflexivity.
  - assert (Nn : ~ In n done) by (apply NoDup_remove_2 in ND; intros X; apply ND, in_or_app; auto).
    unfold calcNewLocalSuffStats2 in *. cbn [fold_left]. cbn [fst snd]. fold (usableb D n). replace (done ++ n :: range) with ((done ++ [n]) ++ range) in * by (rewrite <- app_assoc; reflexivity).
    assert (X : exists E1 aux1, (if usableb D n then calc_anji2 E n (nth n D no_pair) aux else (E, aux)) = (E1, aux1) /\ ltb E1 = ltb E0 /\ atb E1 = atb E0 /\ keep2 E1 = keep2 E0 /\
      (forall n', n' <> n -> old2 E1 n' = old2 E n') /\ old2 E1 n = (if keep2 E0 then if usableb D n then Some (nw n) else old2 E n else None) /\
      aux1 = (fold_left (fill N.eq_dec N.eq_dec) (lev n) (fst aux), fold_left (fill aposdec Nat.eq_dec) (aev n) (snd aux))).
    { unfold lev, aev, evs. destruct (usableb D n) eqn:Us.
      - unfold calc_anji2. rewrite gather2_fill. do 2 eexists. split; [reflexivity|]. cbn [ltb atb keep2]. repeat (split; [assumption|]). split; [|split].
        + intros n' Hn. unfold old2. cbn [keep2 store2]. destruct (keep2 E); [|reflexivity]. apply aget_aset_other, Hn.
        + unfold old2. cbn [keep2 store2]. rewrite Hk. destruct (keep2 E0); [|reflexivity]. rewrite aget_aset_same. unfold nw, new2. rewrite Hl, Ha. reflexivity.
        + fold (old2 E n). rewrite (O1 n Nn). unfold nw, new2. rewrite Hl, Ha. reflexivity.
      - exists E, aux. do 4 (split; [first [reflexivity|assumption]|]). split; [auto|]. split; [|destruct aux; reflexivity]. unfold old2. rewrite Hk. destruct (keep2 E0); reflexivity. }
    destruct X as (E1 & aux1 & X0 & X1 & X2 & X3 & X4 & X5 & X6). cbv zeta. rewrite X0. specialize (IH (done ++ [n]) E1 aux1 X1 X2 X3 ND).
    assert (Y1 : forall n', ~ In n' (done ++ [n]) -> old2 E1 n' = old2 E0 n').
    { intros n' Hn. rewrite X4; [apply O1|]; intros Z; apply Hn, in_or_app; [auto|right; left; auto]. }
    assert (Y2 : forall n', In n' (done ++ [n]) -> old2 E1 n' = if keep2 E0 then ex' D (old2 E0) nw (done ++ [n]) n' else None).
    { intros n' Hn. destruct (Nat.eq_dec n' n) as [->|Ne].
      - rewrite X5. destruct (keep2 E0); [|reflexivity]. unfold ex'. destruct (in_dec Nat.eq_dec n (done ++ [n])); [|contradiction]. cbn [andb]. destruct (usableb D n); [reflexivity|]. apply O1, Nn.
      - rewrite X4 by exact Ne. apply in_app_or in Hn as [Hn|[Hn|[]]]; [|congruence]. rewrite (O2 n' Hn). destruct (keep2 E0); [|reflexivity]. unfold ex'. destruct (in_dec Nat.eq_dec n' done); [|contradiction].
        destruct (in_dec Nat.eq_dec n' (done ++ [n])) as [_|Z]; [reflexivity|]. exfalso. apply Z, in_or_app. auto. }
    specialize (IH Y1 Y2). cbn [fst snd] in IH |- *. destruct IH as (A & B & C & F & G). split; [exact A|]. split; [exact B|]. split; [exact C|]. split; [exact F|]. etransitivity; [exact G|]. rewrite X6. cbn [fst snd flat_map]. rewrite !fold_left_app. reflexivity.
Qed.
End PASS.
(** ---- training *)
Lemma ex'_ext : forall D o1 n1 range n, ex' D o1 n1 range n = if ((if in_dec Nat.eq_dec n range then true else false) && usableb D n)%bool then Some (n1 n) else o1 n.
Proof. reflexivity. Qed.
Lemma pos2 : forall E D n q, In q (pos_of (nth n D no_pair)) -> 0 < cell (nw D E n) (fst q) (snd q).
Proof. intros E D n [j i] H. unfold pos_of in H. apply positions_in in H as [Hj Hi]. apply cell2_pos; assumption. Qed.
Record trained2 (D : list pair) (E : em2) : Prop := {
  t2_keep : keep2 E = true;
  t2_store : forall n, old2 E n <> None -> (n < length D)%nat /\ usable (nth n D no_pair);
  t2_lex : holds N.eq_dec N.eq_dec kfl D (ltb E) (old2 E);
  t2_alig : holds aposdec Nat.eq_dec kfa D (atb E) (old2 E) }.
Lemma holds_ext : forall {K1 K2} (d1 : forall a b : K1, {a = b} + {a <> b}) (d2 : forall a b : K2, {a = b} + {a <> b}) kf D T ex ex0, (forall n, ex n = ex0 n) -> holds d1 d2 kf D T ex -> holds d1 d2 kf D T ex0.
Proof.
  intros K1 K2 d1 d2 kf D T ex ex0 H [A B C]. constructor; [exact A| |].
  - intros s t. rewrite B. unfold gcounts. apply sumf_ext. intros n _. now rewrite H.
  - intros s t. rewrite C. split; intros (n & X & Y); exists n; [rewrite <- H|rewrite H]; auto.
Qed.
Lemma wal_ok : forall w a, 0 < w -> 0 < a -> (exists r, weighted_new_alig w a = Fin r) /\ lgexp (weighted_new_alig w a) = at_least_1e6 (w * a).
Proof. intros. apply wnew_alig_pos. Qed.
Lemma pass2 : forall D range E TL TA, (forall p, In p D -> usable p -> 0 < weight p) -> NoDup range -> (forall n, In n range -> (n < length D)%nat) ->
  (forall n, old2 E n <> None -> (n < length D)%nat /\ usable (nth n D no_pair)) -> holds N.eq_dec N.eq_dec kfl D TL (old2 E) -> holds aposdec Nat.eq_dec kfa D TA (old2 E) ->
  let r := calcNewLocalSuffStats2 D range E ([], []) in
  ltb (fst r) = ltb E /\ atb (fst r) = atb E /\ keep2 (fst r) = keep2 E /\ (forall n, old2 (fst r) n = if keep2 E then ex' D (old2 E) (nw D E) range n else None) /\
  holds N.eq_dec N.eq_dec kfl D (fst (updatePars2 TL TA (snd r))) (ex' D (old2 E) (nw D E) range) /\ holds aposdec Nat.eq_dec kfa D (snd (updatePars2 TL TA (snd r))) (ex' D (old2 E) (nw D E) range).
Proof.
  intros D range E TL TA W ND Hr So HL HA. destruct (suff2 D E range [] E ([], []) eq_refl eq_refl eq_refl ND ltac:(reflexivity) ltac:(intros n [])) as (A & B & C & F & G).
  cbn [app] in F. split; [exact A|]. split; [exact B|]. split; [exact C|]. split; [exact F|]. unfold updatePars2. rewrite G. cbn [fst snd]. split.
  - apply (tab_train N.eq_dec N.eq_dec kfl weighted_new wnew_pos D (old2 E) (nw D E) W (pos2 E D) So TL range HL ND Hr).
  - apply (tab_train aposdec Nat.eq_dec kfa weighted_new_alig wal_ok D (old2 E) (nw D E) W (pos2 E D) So TA range HA ND Hr).
Qed.
Lemma ex'_some : forall D E range n, (forall n, In n range -> (n < length D)%nat) -> (forall n, old2 E n <> None -> (n < length D)%nat /\ usable (nth n D no_pair)) ->
  ex' D (old2 E) (nw D E) range n <> None -> (n < length D)%nat /\ usable (nth n D no_pair).
Proof.
  intros D E range n Hr So H. unfold ex' in H. destruct (in_dec Nat.eq_dec n range) as [I|I]; cbn [andb] in H; [|apply So, H]. destruct (usableb D n) eqn:U; [|apply So, H]. split; [apply Hr, I|apply len_ok, U].
Qed.
Lemma train2 : forall D range E, (forall p, In p D -> usable p -> 0 < weight p) -> trained2 D E -> NoDup range -> (forall n, In n range -> (n < length D)%nat) ->
  trained2 D (trainSentPairRange2 D range E) /\ (forall n, old2 (trainSentPairRange2 D range E) n = ex' D (old2 E) (nw D E) range n).
Proof.
  intros D range E W Tr ND Hr. destruct (pass2 D range E (ltb E) (atb E) W ND Hr (t2_store _ _ Tr) (t2_lex _ _ Tr) (t2_alig _ _ Tr)) as (A & B & C & F & G & H).
  unfold trainSentPairRange2. destruct (calcNewLocalSuffStats2 D range E ([], [])) as [E' aux]. cbn [fst snd] in *. rewrite A, B. destruct (updatePars2 (ltb E) (atb E) aux) as [L A']. cbn [fst snd] in *.
  rewrite (t2_keep _ _ Tr) in *. assert (O : forall n, old2 {| ltb := L; atb := A'; keep2 := keep2 E'; store2 := store2 E' |} n = ex' D (old2 E) (nw D E) range n) by (intros n; apply (F n)).
  split; [|exact O]. constructor.
  - exact C.
  - intros n X. rewrite O in X. apply (ex'_some D E range n Hr (t2_store _ _ Tr) X).
  - eapply holds_ext; [intros n; symmetry; apply O|exact G].
  - eapply holds_ext; [intros n; symmetry; apply O|exact H].
Qed.
Lemma in_target (D : list pair) (s t : N) : forall (ex : nat -> option (list (list R))) n, (ex n <> None -> (n < length D)%nat) -> ex n <> None -> gocc N.eq_dec N.eq_dec kfl (nth n D no_pair) (s, t) <> [] -> In t (vocab D).
Proof.
  intros ex n H X B. apply nodup_In, in_flat_map. exists (nth n D no_pair). split; [apply nth_In, H, X|].
  rewrite gocc_lex in B. unfold occ in B. destruct (filter _ _) as [|q l] eqn:Q; [congruence|]. assert (Y : In q (q :: l)) by (left; reflexivity). rewrite <- Q in Y. apply filter_In in Y as [X1 X2].
  apply andb_true_iff in X2 as [_ X2]. apply N.eqb_eq in X2. destruct q as [j i]. apply positions_in in X1 as [Hj _]. cbn [fst] in X2. rewrite <- X2. apply nth_In, Hj.
Qed.
Lemma lex_prob : forall D ex L s t, (forall n : nat, ex n <> None -> (n < length D)%nat) -> holds N.eq_dec N.eq_dec kfl D L ex -> pts2 L s t = iem_prob (D, ex) s t.
Proof.
  intros D ex L s t H1 H. unfold pts2. rewrite (holds_prob N.eq_dec N.eq_dec kfl D L ex s t (vocab D) H (NoDup_nodup _ _)); [|intros n t' X Y; eapply in_target; eauto].
  unfold iem_prob, rel_freq. cbn [fst snd]. rewrite gcounts_lex. f_equal. apply sumf_ext. intros; apply gcounts_lex.
Qed.
Lemma alig_prob : forall D ex A k i, holds aposdec Nat.eq_dec kfa D A ex -> palig A k i = iem2_alig (D, ex) k i.
Proof.
  intros D ex A k i H. unfold palig. rewrite (holds_prob aposdec Nat.eq_dec kfa D A ex k i (seq 0 (S (snd (fst k)))) H (seq_NoDup _ _)).
  - unfold iem2_alig, alig_freq. cbn [fst snd]. rewrite gcounts_alig. f_equal. apply sumf_ext. intros; apply gcounts_alig.
  - intros n i' X Y. apply gocc_alig in Y as [Y1 Y2]. apply in_seq. lia.
Qed.
Lemma trained2_add : forall D E p, trained2 D E -> trained2 (D ++ [p]) E.
Proof.
  intros D E p Tr. assert (Ln : forall n, old2 E n <> None -> (n < length D)%nat) by (intros n H; apply (t2_store _ _ Tr n H)).
  assert (None_len : old2 E (length D) = None) by (destruct (old2 E (length D)) eqn:Q; [|reflexivity]; exfalso; assert (Z : (length D < length D)%nat) by (apply Ln; rewrite Q; discriminate); lia).
  assert (HH : forall K1 K2 (d1 : forall a b : K1, {a = b} + {a <> b}) (d2 : forall a b : K2, {a = b} + {a <> b}) kf T, holds d1 d2 kf D T (old2 E) -> holds d1 d2 kf (D ++ [p]) T (old2 E)).
  { intros K1 K2 d1 d2 kf T [A B C]. constructor; [exact A| |].
    - intros s t. rewrite B. unfold gcounts. rewrite app_length. cbn [length]. rewrite Nat.add_1_r, seq_S, sumf_app. cbn [sumf]. rewrite Nat.add_0_l, None_len, !Rplus_0_r. apply sumf_ext. intros n Hn. apply in_seq in Hn. rewrite app_nth1 by lia. reflexivity.
    - intros s t. rewrite C. split; intros (n & X & Y); exists n; (split; [exact X|]); rewrite app_nth1 in * by (apply Ln, X); exact Y. }
  constructor; [apply Tr| |apply HH, Tr|apply HH, Tr]. intros n H. destruct (t2_store _ _ Tr n H) as [A B]. rewrite app_length, app_nth1 by exact A. split; [cbn; lia|exact B].
Qed.
Definition agree2 (x : list pair * em2) (y : iem) : Prop :=
  trained2 (fst x) (snd x) /\ (forall p, In p (fst x) -> 0 < weight p) /\ fst y = fst x /\ (forall n, snd y n = old2 (snd x) n).
Lemma agree2_holds : forall x y, agree2 x y -> holds N.eq_dec N.eq_dec kfl (fst y) (ltb (snd x)) (snd y) /\ holds aposdec Nat.eq_dec kfa (fst y) (atb (snd x)) (snd y) /\ (forall n, snd y n <> None -> (n < length (fst y))%nat).
Proof.
  intros x y (Tr & _ & F & S0). rewrite F. split; [|split].
  - eapply holds_ext; [intros; symmetry; apply S0|apply Tr].
  - eapply holds_ext; [intros; symmetry; apply S0|apply Tr].
  - intros n H. rewrite S0 in H. apply (t2_store _ _ Tr n H).
Qed.
Lemma agree2_prob : forall x y s t, agree2 x y -> pts2 (ltb (snd x)) s t = iem_prob y s t.
Proof. intros x y s t A. destruct (agree2_holds x y A) as (H & _ & Ln). rewrite (lex_prob (fst y) (snd y)) by assumption. destruct y; reflexivity. Qed.
Lemma agree2_alig : forall x y k i, agree2 x y -> palig (atb (snd x)) k i = iem2_alig y k i.
Proof. intros x y k i A. destruct (agree2_holds x y A) as (_ & H & _). rewrite (alig_prob (fst y) (snd y)) by assumption. destruct y; reflexivity. Qed.
Lemma agree2_step : forall x y o, agree2 x y -> legal (length (fst x)) [o] -> agree2 (em2_step x o) (iem2_op y o).
Proof.
  intros x y o A L. pose proof (fun s t => agree2_prob x y s t A) as AP. pose proof (fun s t => agree2_alig x y s t A) as AA. destruct A as (Tr & W & F & S0). destruct o as [p|b e]; cbn in L |- *.
  - split; [apply trained2_add; exact Tr|]. split; [|split; [cbn; now rewrite F|exact S0]]. intros q Hq. apply in_app_or in Hq. destruct Hq as [Hq|[<-|[]]]; [apply W, Hq|apply L].
  - destruct L as [L _]. change (match b with O => S e | S l => (e - l)%nat end) with (S e - b)%nat.
    assert (Hr : forall n, In n (seq b (S e - b)) -> (n < length (fst x))%nat) by (intros n Hn; apply in_seq in Hn; lia).
    destruct (train2 (fst x) (seq b (S e - b)) (snd x) (fun p Hp _ => W p Hp) Tr (seq_NoDup _ _) Hr) as [T2 O2].
    split; [exact T2|]. split; [exact W|]. cbn [fst snd]. split; [exact F|]. intros n. unfold iem2_train. cbn [fst snd]. rewrite O2, F. unfold range_of, ex'.
    destruct (in_dec Nat.eq_dec n (training_set (fst x) (seq b (S e - b)))) as [I|I].
    + apply training_set_in in I as [I1 I2]. destruct (in_dec Nat.eq_dec n (seq b (S e - b))); [|contradiction]. assert (U : usableb (fst x) n = true) by (apply len_ok; exact I2). rewrite U. cbn [andb].
      f_equal. unfold nw. rewrite (estep2_ok _ _ _ (h_inv _ _ _ _ _ _ (t2_lex _ _ Tr)) (h_inv _ _ _ _ _ _ (t2_alig _ _ Tr))). apply estep2_ext; intros; symmetry; [apply AP|apply AA].
    + destruct (in_dec Nat.eq_dec n (seq b (S e - b))) as [I1|I1]; cbn [andb]; [|apply S0]. destruct (usableb (fst x) n) eqn:U; [|apply S0]. exfalso. apply I, training_set_in. split; [exact I1|apply len_ok, U].
Qed.
Lemma agree2_run : forall ops x y, agree2 x y -> legal (length (fst x)) ops -> agree2 (fold_left em2_step ops x) (fold_left iem2_op ops y).
Proof.
  induction ops as [|o ops IH]; intros x y A L; cbn [fold_left]; [exact A|]. apply legal_cons in L as [L1 L2]. apply IH; [apply agree2_step; assumption|].
  destruct o; cbn [em2_step fst]; [rewrite app_length, Nat.add_1_r; exact L2|exact L2].
Qed.
Theorem session2 : forall ops, legal 0 ops -> agree2 (fold_left em2_step ops ([], em2_new)) (fold_left iem2_op ops iem_new).
Proof.
  intros ops L. apply agree2_run; [|exact L]. split; [|split; [intros p []|split; reflexivity]]. constructor; [reflexivity|intros n H; exfalso; apply H; reflexivity| |]; apply holds_empty; reflexivity.
Qed.
(** ---- batch training *)
Definition batch_ex (D : list pair) (range : list nat) (E : em2) (n : nat) : option (list (list R)) :=
  if in_dec Nat.eq_dec n (training_set D range) then Some (new2 (ltb E) (atb E) (nth n D no_pair)) else None.
Lemma batch2 : forall D range E, (forall p, In p D -> usable p -> 0 < weight p) -> NoDup range -> (forall n, In n range -> (n < length D)%nat) ->
  let E' := efficientBatchTrainingForRange2 D range E in
  holds N.eq_dec N.eq_dec kfl D (ltb E') (batch_ex D range E) /\ holds aposdec Nat.eq_dec kfa D (atb E') (batch_ex D range E).
Proof.
  intros D range E W ND Hr. set (E1 := expval_maxnsize0 E).
  assert (O : forall n, old2 E1 n = None) by reflexivity.
  destruct (pass2 D range E1 nd_empty nd_empty W ND Hr) as (A & B & C & F & G & H); [intros n X; exfalso; apply X; reflexivity|apply holds_empty; reflexivity|apply holds_empty; reflexivity|].
  unfold efficientBatchTrainingForRange2. fold E1. destruct (calcNewLocalSuffStats2 D range E1 ([], [])) as [E' aux]. cbn [fst snd] in *. destruct (updatePars2 nd_empty nd_empty aux) as [L A']. cbn [fst snd ltb atb] in *.
  assert (X : forall n, ex' D (old2 E1) (nw D E1) range n = batch_ex D range E n).
  { intros n. unfold ex', batch_ex. destruct (in_dec Nat.eq_dec n (training_set D range)) as [I|I].
    - apply training_set_in in I as [I1 I2]. destruct (in_dec Nat.eq_dec n range); [|contradiction]. assert (U : usableb D n = true) by (apply len_ok; exact I2). rewrite U. reflexivity.
    - destruct (in_dec Nat.eq_dec n range) as [I1|I1]; cbn [andb]; [|reflexivity]. destruct (usableb D n) eqn:U; [|reflexivity]. exfalso. apply I, training_set_in. split; [exact I1|apply len_ok, U]. }
  split; eapply holds_ext; try (intros n; apply X); assumption.
Qed.
Lemma ex_sum : forall D range E (f : nat -> list (list R) -> R), NoDup range -> (forall n, In n range -> (n < length D)%nat) ->
  sumf (fun n => match batch_ex D range E n with Some m => f n m | None => 0 end) (seq 0 (length D)) = sumf (fun n => f n (new2 (ltb E) (atb E) (nth n D no_pair))) (training_set D range).
Proof.
  intros D range E f ND Hr. set (h := fun n => match batch_ex D range E n with Some m => f n m | None => 0 end).
  assert (NT : NoDup (training_set D range)) by (apply NoDup_filter, ND).
  rewrite (sumf_change h (fun _ => 0) (training_set D range) (seq 0 (length D)) NT (seq_NoDup _ _)).
  - rewrite !sumf_0. rewrite Rminus_0_r, Rplus_0_l. apply sumf_ext. intros n Hn. unfold h, batch_ex. destruct (in_dec Nat.eq_dec n (training_set D range)); [reflexivity|contradiction].
  - intros n Hn. apply training_set_in in Hn as [Hn _]. apply in_seq0, Hr, Hn.
  - intros n Hn. unfold h, batch_ex. destruct (in_dec Nat.eq_dec n (training_set D range)); [contradiction|reflexivity].
Qed.
Lemma reached2_ok : forall D E, reached2 D E -> linv (ltb E) /\ ainv (atb E) /\ (forall p, In p D -> 0 < weight p).
Proof.
  intros D E R. induction R as [ops L|D E b e R (I & J & W) H].
  - destruct (session2 ops L) as (Tr & W & _). split; [apply (h_inv _ _ _ _ _ _ (t2_lex _ _ Tr))|]. split; [apply (h_inv _ _ _ _ _ _ (t2_alig _ _ Tr))|exact W].
  - destruct (batch2 D (range_of b e) E) as [HL HA]; [intros; auto|apply seq_NoDup|intros n Hn; eapply range_lt; eauto|]. split; [apply (h_inv _ _ _ _ _ _ HL)|]. split; [apply (h_inv _ _ _ _ _ _ HA)|exact W].
Qed.
Lemma share2 : forall L A p j i, linv L -> ainv A -> (forall i, (i <= length (src p))%nat -> / 1000000 <= gen2 (pts2 L) (palig A) (with_null (src p)) (trg p) j i) -> (j < length (trg p))%nat -> (i <= length (src p))%nat ->
  cell (new2 L A p) j i = gen2 (pts2 L) (palig A) (with_null (src p)) (trg p) j i / sumf (gen2 (pts2 L) (palig A) (with_null (src p)) (trg p) j) (seq 0 (S (length (src p)))).
Proof.
  intros L A p j i IL IA U Hj Hi. rewrite estep2_ok by assumption. unfold cell, estep2. rewrite nth_map_seq_l by exact Hj. rewrite nth_map_seq_l by lia.
  assert (R : forall i, (i <= length (src p))%nat -> raw2 (pts2 L) (palig A) p j i = gen2 (pts2 L) (palig A) (with_null (src p)) (trg p) j i).
  { intros i' Hi'. specialize (U i' Hi'). unfold raw2. unfold gen2 in *. change (pred (length (with_null (src p)))) with (length (src p)) in *. set (a := pts2 L _ _) in *. set (b := palig A _ _) in *.
    assert (Pa : 0 <= a) by apply prob_nonneg. assert (Pb : 0 <= b) by apply prob_nonneg.
    unfold seen_or. destruct (Rlt_dec 0 a) as [_|Q]; [|exfalso; assert (a = 0) by lra; rewrite H, Rmult_0_l in U; lra]. destruct (Rlt_dec 0 b) as [_|Q]; [|exfalso; assert (b = 0) by lra; rewrite H, Rmult_0_r in U; lra].
    apply Rmax_left, U. }
  rewrite R by exact Hi. f_equal. apply sumf_ext. intros i' H'. apply in_seq in H'. apply R. lia.
Qed.
