From Coq Require Import Reals NArith Arith List Bool Lra Lia Permutation.
From Verif Require Import AMap MathModel LogNum LogNumProofs RSums Ibm1Spec Ibm1Model Ibm1QueryProofs.
Import ListNotations.
Open Scope R_scope.
(** ---- E-step *)
Lemma fold_plus : forall l a, fold_left Rplus l a = a + sumf (fun x => x) l.
Proof. induction l as [|x l IH]; intros a; cbn; [lra|]. rewrite IH. lra. Qed.
Lemma smooth_pos : forall d, 0 < smooth_num d.
Proof. intros d. unfold smooth_num, SMOOTHING_ANJI_NUM. destruct (Rlt_dec d (/ 1000000)); lra. Qed.
Lemma nums_pos : forall T ns t, ns <> [] -> 0 < fold_left Rplus (map (fun s => smooth_num (calc_anji_num T s t)) ns) 0.
Proof.
  intros T ns t H. rewrite fold_plus, Rplus_0_l, sumf_map. destruct ns as [|x ns]; [congruence|]. cbn [sumf].
  pose proof (smooth_pos (calc_anji_num T x t)). assert (0 <= sumf (fun s => smooth_num (calc_anji_num T s t)) ns) by (apply sumf_nonneg; intros; left; apply smooth_pos). lra.
Qed.
Lemma anji_row_sum : forall T ns t, ns <> [] -> sumf (fun x => x) (anji_row T ns t) = 1 /\ (forall x, In x (anji_row T ns t) -> 0 < x <= 1) /\ length (anji_row T ns t) = length ns.
Proof.
  intros T ns t H. pose proof (nums_pos T ns t H) as P. unfold anji_row in *. set (nums := map (fun s => smooth_num (calc_anji_num T s t)) ns) in *.
  assert (S0 : fold_left Rplus nums 0 = sumf (fun x => x) nums) by (rewrite fold_plus; lra).
  split; [|split].
  - rewrite sumf_map. rewrite (sumf_ext _ (fun x => x * / fold_left Rplus nums 0)) by reflexivity. rewrite sumf_scal_r, <- S0. field. lra.
  - intros x Hx. rewrite in_map_iff in Hx. destruct Hx as (d & <- & Hd). assert (Pd : 0 < d) by (unfold nums in Hd; rewrite in_map_iff in Hd; destruct Hd as (s & <- & _); apply smooth_pos).
    split; [apply Rdiv_lt_0_compat; assumption|]. assert (d <= fold_left Rplus nums 0).
    { rewrite S0. apply (sumf_ge_one (fun x => x)); [|exact Hd]. intros y Hy. unfold nums in Hy. rewrite in_map_iff in Hy. destruct Hy as (s & <- & _). left. apply smooth_pos. }
    apply Rmult_le_reg_r with (fold_left Rplus nums 0); [exact P|]. unfold Rdiv. rewrite Rmult_assoc, Rinv_l by lra. lra.
  - unfold nums. now rewrite !map_length.
Qed.
(** no smoothing: the value is the share of the source word *)
Definition unsmoothed_at (T : lextabR) (ns : list N) (t : N) : Prop := forall x, In x ns -> getLexNumer T x t <> None /\ SMOOTHING_ANJI_NUM <= pts T x t.
Lemma anji_row_share : forall T ns t i, unsmoothed_at T ns t -> (i < length ns)%nat -> nth i (anji_row T ns t) 0 = pts T (nth i ns 0%N) t / sumf (fun x => pts T x t) ns.
Proof.
  intros T ns t i U Hi. unfold anji_row.
  assert (E : map (fun s => smooth_num (calc_anji_num T s t)) ns = map (fun s => pts T s t) ns).
  { apply map_ext_in. intros x Hx. destruct (U x Hx) as [A B]. unfold calc_anji_num. destruct (getLexNumer T x t); [|congruence]. unfold smooth_num. destruct (Rlt_dec _ _); [lra|reflexivity]. }
  rewrite E, fold_plus, Rplus_0_l, sumf_map, map_map.
  rewrite (nth_indep _ 0 ((fun x => pts T x t / sumf (fun x0 => pts T x0 t) ns) 0%N)) by (now rewrite map_length).
  rewrite (map_nth (fun x => pts T x t / sumf (fun x0 => pts T x0 t) ns)). reflexivity.
Qed.
Lemma post_num : forall (p : nat -> N -> R) c i t j, NoDup c -> In i c -> (j < length t)%nat ->
  sumf (fun a => prodf (fun q => p (fst q) (snd q)) (combine a t)) (filter (fun a => Nat.eqb (nth j a 0%nat) i) (seqs c (length t))) * sumf (fun x => p x (nth j t 0%N)) c
  = p i (nth j t 0%N) * prodf (fun w => sumf (fun x => p x w) c) t.
Proof.
  intros p c i t j ND Hi Hj.
  assert (FI : forall {A} (f : A -> R) g l, sumf f (filter g l) = sumf (fun x => if g x then f x else 0) l).
  { intros A f g l. induction l as [|x l IH]; cbn; [reflexivity|]. destruct (g x); cbn; rewrite IH; lra. }
  rewrite FI. revert j Hj. induction t as [|w t IH]; intros j Hj; [cbn in Hj; lia|].
  cbn [length seqs]. rewrite sumf_flat_map. cbn [prodf].
  destruct j as [|j]; cbn [nth].
  - assert (E : sumf (fun x => sumf (fun a => if Nat.eqb (nth 0 a 0%nat) i then prodf (fun q => p (fst q) (snd q)) (combine a (w :: t)) else 0) (map (cons x) (seqs c (length t)))) c
              = p i w * prodf (fun w => sumf (fun x => p x w) c) t).
    { rewrite <- sum_prod. set (G := sumf _ (seqs c (length t))).
      transitivity (sumf (fun x => if Nat.eqb x i then p i w * G else 0) c).
      - apply sumf_ext. intros x _. rewrite sumf_map. cbn [nth combine prodf fst snd]. destruct (Nat.eqb_spec x i) as [->|Nx]; [apply sumf_scal|apply sumf_0].
      - generalize (p i w * G). intros g. clear -ND Hi. induction ND as [|x l Hx ND IH]; [destruct Hi|]. cbn [sumf]. destruct (Nat.eqb_spec x i) as [->|Nx].
        + assert (Z : sumf (fun x => if Nat.eqb x i then g else 0) l = 0); [|rewrite Z; lra].
          transitivity (sumf (fun _ : nat => 0) l); [|apply sumf_0]. apply sumf_ext. intros y Hy. destruct (Nat.eqb_spec y i) as [->|]; [contradiction|reflexivity].
        + destruct Hi as [->|Hi]; [congruence|]. rewrite IH by exact Hi. lra. }
    rewrite E. ring.
  - rewrite (sumf_ext _ (fun x => p x w * sumf (fun a => if Nat.eqb (nth j a 0%nat) i then prodf (fun q => p (fst q) (snd q)) (combine a t) else 0) (seqs c (length t)))).
    + rewrite sumf_scal_r, Rmult_assoc, IH by (cbn in Hj; lia). ring.
    + intros x _. rewrite sumf_map, <- sumf_scal. apply sumf_ext. intros a _. cbn [nth combine prodf fst snd]. destruct (Nat.eqb _ _); lra.
Qed.
Lemma sum_nth : forall (f : N -> R) ns, sumf (fun i => f (nth i ns 0%N)) (seq 0 (length ns)) = sumf f ns.
Proof. intros f ns. induction ns as [|x l IH]; [reflexivity|]. cbn [length seq sumf]. rewrite <- seq_shift, sumf_map. cbn [nth]. rewrite IH. reflexivity. Qed.
Theorem posterior_share : forall p ns t j i, ns <> [] -> (forall w, In w t -> 0 < sumf (fun x => p x w) ns) -> (j < length t)%nat -> (i < length ns)%nat ->
  posterior p ns t j i = p (nth i ns 0%N) (nth j t 0%N) / sumf (fun x => p x (nth j t 0%N)) ns.
Proof.
  intros p ns t j i Hn Hp Hj Hi. unfold posterior. rewrite total_prod by exact Hn. unfold joint. rewrite sumf_scal. unfold lex_prob, alignments.
  replace (S (pred (length ns))) with (length ns) by (destruct ns; [congruence|reflexivity]).
  pose proof (post_num (fun k w => p (nth k ns 0%N) w) (seq 0 (length ns)) i t j (seq_NoDup _ _) ltac:(apply in_seq; lia) Hj) as E. cbn beta in E.
  rewrite (sum_nth (fun x => p x (nth j t 0%N))) in E.
  rewrite (prodf_ext _ (fun w => sumf (fun x => p x w) ns)) in E by (intros; apply (sum_nth (fun x0 => p x0 x))).
  assert (P1 : 0 < sumf (fun x => p x (nth j t 0%N)) ns) by (apply Hp, nth_In, Hj).
  assert (P2 : 0 < prodf (fun w => sumf (fun x => p x w) ns) t) by (apply prodf_pos, Hp).
  assert (P3 : 0 < / INR (length ns) ^ length t) by (apply Rinv_0_lt_compat, pow_lt, lt_0_INR; destruct ns; [congruence|cbn; lia]).
  apply Rmult_eq_reg_r with (sumf (fun x => p x (nth j t 0%N)) ns); [|lra].
  replace (p (nth i ns 0%N) (nth j t 0%N) / sumf (fun x => p x (nth j t 0%N)) ns * sumf (fun x => p x (nth j t 0%N)) ns) with (p (nth i ns 0%N) (nth j t 0%N)) by (field; lra).
  set (F := sumf _ (filter _ _)) in *. revert P3. generalize (/ INR (length ns) ^ length t). intros cc P3.
  replace (cc * F / (cc * prodf (fun w => sumf (fun x => p x w) ns) t) * sumf (fun x => p x (nth j t 0%N)) ns)
    with (F * sumf (fun x => p x (nth j t 0%N)) ns / prodf (fun w => sumf (fun x => p x w) ns) t) by (field; split; lra).
  rewrite E. field. lra.
Qed.
(** ---- accumulation of the local statistics *)
Definition ev : Type := ((N * N) * (lg * lg))%type.        (* word pair, old and new log contribution *)
Definition fill (aux : auxvar) (e : ev) : auxvar :=
  match aget pairdec (fst e) aux with
  | Some (c, n) => aset pairdec (fst e) ((if lgneqb (fst (snd e)) LZ then lgsumlog c (fst (snd e)) else c), lgsumlog n (snd (snd e))) aux
  | None => aset pairdec (fst e) (snd e) aux
  end.
Definition ok_ev (e : ev) : Prop := fst (snd e) <> NaN /\ exists r, snd (snd e) = Fin r.
Definition at_key (k : N * N) (f : lg * lg -> R) (e : ev) : R := if pairdec (fst e) k then f (snd e) else 0.
Definition curs (k : N * N) (evs : list ev) : R := sumf (at_key k (fun v => lgexp (fst v))) evs.
Definition news (k : N * N) (evs : list ev) : R := sumf (at_key k (fun v => lgexp (snd v))) evs.
Definition aux_inv (aux : auxvar) (evs : list ev) : Prop :=
  awf aux /\ forall k, match aget pairdec k aux with
    | None => forall e, In e evs -> fst e <> k
    | Some (c, n) => c <> NaN /\ (exists r, n = Fin r) /\ lgexp c = curs k evs /\ lgexp n = news k evs
    end.
Lemma at_none : forall k f evs, (forall e : ev, In e evs -> fst e <> k) -> sumf (at_key k f) evs = 0.
Proof. intros k f evs H. rewrite (sumf_ext _ (fun _ => 0)); [apply sumf_0|]. intros e He. unfold at_key. destruct (pairdec (fst e) k); [exfalso; eapply H; eauto|reflexivity]. Qed.
Lemma fill_inv : forall aux evs e, aux_inv aux evs -> ok_ev e -> aux_inv (fill aux e) (evs ++ [e]).
Proof.
  intros aux evs e [W I] [Oc [rn On]]. unfold fill. pose proof (I (fst e)) as Ie.
  destruct e as [ke [c1 n1]]. cbn [fst snd] in *. subst n1.
  destruct (aget pairdec ke aux) as [[c n]|] eqn:G.
  - destruct Ie as (Hc & [r Hn] & Ec & En). subst n. split; [apply aset_wf, W|]. intros k. rewrite aget_aset. destruct (pairdec k ke) as [->|Nk].
    + assert (Sn : lgexp (lgsumlog (Fin r) (Fin rn)) = lgexp (Fin r) + lgexp (Fin rn)) by (apply lgsumlog_exp; [discriminate|discriminate|left; discriminate]).
      unfold curs, news. rewrite !sumf_app. cbn [sumf]. unfold at_key at 2 4. cbn [fst snd]. destruct (pairdec ke ke); [|congruence].
      fold (curs ke evs). fold (news ke evs). rewrite <- Ec, <- En.
      split; [|split; [eexists; reflexivity|split; [|rewrite Sn; lra]]].
      * destruct (lgneqb c1 LZ) eqn:Q; [|exact Hc]. apply lgsumlog_exp; [exact Hc|exact Oc|right]. intros ->. discriminate.
      * destruct (lgneqb c1 LZ) eqn:Q.
        -- destruct (lgsumlog_exp c c1 Hc Oc) as [E _]; [right; intros ->; discriminate|]. rewrite E. lra.
        -- destruct c1; cbn in Q; try discriminate. cbn. lra.
    + specialize (I k). destruct (aget pairdec k aux) as [[c2 n2]|].
      * unfold curs, news in *. rewrite !sumf_app. cbn [sumf]. unfold at_key at 2 4. cbn [fst snd]. destruct (pairdec ke k); [congruence|].
        destruct I as (A & B & C & D). split; [exact A|]. split; [exact B|]. split; [rewrite C; lra|rewrite D; lra].
      * intros e He. rewrite in_app_iff in He. destruct He as [He|[<-|[]]]; [now apply I|cbn; congruence].
  - split; [apply aset_wf, W|]. intros k. rewrite aget_aset. destruct (pairdec k ke) as [->|Nk].
    + unfold curs, news. rewrite !sumf_app. rewrite !(at_none ke _ evs Ie). cbn [sumf]. unfold at_key. cbn [fst snd]. destruct (pairdec ke ke); [|congruence].
      split; [exact Oc|]. split; [eexists; reflexivity|]. split; cbn; lra.
    + specialize (I k). destruct (aget pairdec k aux) as [[c2 n2]|].
      * unfold curs, news in *. rewrite !sumf_app. cbn [sumf]. unfold at_key at 2 4. cbn [fst snd]. destruct (pairdec ke k); [congruence|].
        destruct I as (A & B & C & D). split; [exact A|]. split; [exact B|]. split; [rewrite C; lra|rewrite D; lra].
      * intros e He. rewrite in_app_iff in He. destruct He as [He|[<-|[]]]; [now apply I|cbn; congruence].
Qed.
Lemma fill_all : forall evs' aux evs, aux_inv aux evs -> Forall ok_ev evs' -> aux_inv (fold_left fill evs' aux) (evs ++ evs').
Proof.
  induction evs' as [|e evs' IH]; intros aux evs I F; cbn; [now rewrite app_nil_r|]. inversion F; subst.
  replace (evs ++ e :: evs') with ((evs ++ [e]) ++ evs') by (rewrite <- app_assoc; reflexivity). apply IH; [apply fill_inv; assumption|assumption].
Qed.
(** ---- the table *)
Definition numv (T : lextabR) (s t : N) : R := match getLexNumer T s t with Some l => lgexp l | None => 0 end.
Definition denv (T : lextabR) (s : N) : R := match getLexDenom T s with Some l => lgexp l | None => 0 end.
Definition of_src (s : N) (e : (N * N) * lg) : R := if N.eq_dec (fst (fst e)) s then lgexp (snd e) else 0.
Record tab_inv (T : lextabR) : Prop := {
  ti_wf : awf (tnum T);
  ti_num : forall s t l, getLexNumer T s t = Some l -> exists r, l = Fin r;
  ti_den : forall s l, getLexDenom T s = Some l -> exists r, l = Fin r;
  ti_both : forall s t l, getLexNumer T s t = Some l -> getLexDenom T s <> None;
  ti_sum : forall s, denv T s = sumf (of_src s) (tnum T) }.
Lemma tab_inv_empty : tab_inv tab_empty.
Proof. constructor; cbn; try discriminate; try constructor. Qed.
Lemma sum_aset : forall (g : (N * N) * lg -> R) k v l,
  sumf g (aset pairdec k v l) = sumf g l - (match aget pairdec k l with Some x => g (k, x) | None => 0 end) + g (k, v).
Proof.
  intros g k v l. induction l as [|[k' v'] l IH]; cbn; [lra|]. destruct (pairdec k k') as [->|N]; cbn; [lra|]. rewrite IH. lra.
Qed.
Lemma numv_le_denv : forall T s t, tab_inv T -> numv T s t <= denv T s.
Proof.
  intros T s t I. rewrite (ti_sum T I). unfold numv. destruct (getLexNumer T s t) as [l|] eqn:E.
  - unfold getLexNumer in E. apply aget_some_in in E. replace (lgexp l) with (of_src s ((s, t), l)) by (unfold of_src; cbn; destruct (N.eq_dec s s); [reflexivity|congruence]).
    apply sumf_ge_one; [|exact E]. intros e _. unfold of_src. destruct (N.eq_dec _ _); [apply lgexp_nonneg|lra].
  - apply sumf_nonneg. intros e _. unfold of_src. destruct (N.eq_dec _ _); [apply lgexp_nonneg|lra].
Qed.
Lemma update_one_inv : forall T s t c n, tab_inv T -> c <> NaN -> (exists r, n = Fin r) -> lgexp c <= numv T s t ->
  let T' := update_one T ((s, t), (c, n)) in
  tab_inv T' /\ numv T' s t = numv T s t - lgexp c + lgexp n /\ (forall s' t', (s', t') <> (s, t) -> getLexNumer T' s' t' = getLexNumer T s' t') /\
  (c <> n \/ getLexNumer T s t <> None -> getLexNumer T' s t <> None).
Proof.
  intros T s t c n I Hc [rn ->] Hle. cbn [update_one].
  destruct (lgneqb c (Fin rn)) eqn:Q.
  2:{ assert (c = Fin rn) by (apply lgneqb_spec in Q; [exact Q|exact Hc|discriminate]). subst c. cbv zeta. split; [exact I|]. split; [lra|]. split; [reflexivity|]. intros [A|A]; [congruence|exact A]. }
  set (nu := match getLexNumer T s t with Some x => x | None => LZ end). set (de := match getLexDenom T s with Some x => x | None => LZ end).
  assert (Hnu : nu <> NaN /\ lgexp nu = numv T s t).
  { unfold nu, numv. destruct (getLexNumer T s t) eqn:E; [|split; [discriminate|reflexivity]]. destruct (ti_num T I _ _ _ E) as [r ->]. split; [discriminate|reflexivity]. }
  assert (Hde : de <> NaN /\ lgexp de = denv T s).
  { unfold de, denv. destruct (getLexDenom T s) eqn:E; [|split; [discriminate|reflexivity]]. destruct (ti_den T I _ _ E) as [r ->]. split; [discriminate|reflexivity]. }
  destruct Hnu as [Nnu Vnu]. destruct Hde as [Nde Vde].
  destruct (lgsublog_exp nu c Nnu Hc ltac:(lra)) as [S1 S2].
  assert (Nf : Fin rn <> NaN) by discriminate. assert (Nz : Fin rn <> LZ) by discriminate.
  destruct (lgsumlog_exp (lgsublog nu c) (Fin rn) S2 Nf (or_intror Nz)) as (A1 & A2 & A3).
  fold (obtainLogNewSuffStat nu c (Fin rn)) in A1, A2, A3. set (nn := obtainLogNewSuffStat nu c (Fin rn)) in *.
  assert (Hd1 : exists d1, (if lgneqb nu LZ then lgsublog de nu else de) = d1 /\ d1 <> NaN /\ lgexp d1 = denv T s - numv T s t).
  { eexists. split; [reflexivity|]. pose proof (numv_le_denv T s t I). destruct (lgneqb nu LZ) eqn:Z.
    - destruct (lgsublog_exp de nu Nde Nnu ltac:(lra)) as [B1 B2]. split; [exact B2|]. rewrite B1. lra.
    - assert (nu = LZ) by (apply lgneqb_spec in Z; [exact Z|exact Nnu|discriminate]). split; [exact Nde|]. rewrite Vde. rewrite <- Vnu, H0. cbn. lra. }
  destruct Hd1 as (d1 & -> & D1 & D2).
  destruct (lgsumlog_exp d1 nn D1 A2 (or_intror A3)) as (B1 & B2 & B3). set (dd := lgsumlog d1 nn) in *.
  cbv zeta. assert (GN : forall s' t', getLexNumer (setLexNumDen T s t nn dd) s' t' = if pairdec (s', t') (s, t) then Some nn else getLexNumer T s' t') by (intros; unfold getLexNumer; cbn; apply aget_aset).
  assert (GD : forall s', getLexDenom (setLexNumDen T s t nn dd) s' = if N.eq_dec s' s then Some dd else getLexDenom T s') by (intros; unfold getLexDenom; cbn; apply aget_aset).
  assert (Fn : exists r, nn = Fin r) by (destruct nn; [congruence|congruence|eauto]). assert (Fd : exists r, dd = Fin r) by (destruct dd; [congruence|congruence|eauto]).
  split; [constructor|split; [|split]].
  - apply aset_wf, (ti_wf T I).
  - intros s' t' l. rewrite GN. destruct (pairdec _ _); [intros E; inversion E; subst; exact Fn|apply (ti_num T I)].
  - intros s' l. rewrite GD. destruct (N.eq_dec _ _); [intros E; inversion E; subst; exact Fd|apply (ti_den T I)].
  - intros s' t' l. rewrite GN, GD. destruct (N.eq_dec s' s); [discriminate|]. destruct (pairdec _ _); [congruence|]. apply (ti_both T I).
  - intros s'. cbn [setLexNumDen tnum]. rewrite sum_aset. fold (getLexNumer T s t). rewrite <- (ti_sum T I). unfold denv. rewrite GD. unfold of_src. cbn [fst snd].
    destruct (N.eq_dec s' s) as [->|Ns].
    + destruct (N.eq_dec s s); [|congruence]. fold (denv T s). rewrite B1, D2. unfold numv. destruct (getLexNumer T s t); reflexivity.
    + destruct (N.eq_dec s s'); [congruence|]. destruct (getLexNumer T s t); lra.
  - unfold numv at 1. rewrite GN. destruct (pairdec _ _); [|congruence]. rewrite A1, S1, Vnu. reflexivity.
  - intros s' t' Nk. rewrite GN. destruct (pairdec _ _); [congruence|reflexivity].
  - intros _. rewrite GN. destruct (pairdec _ _); [discriminate|congruence].
Qed.
Lemma update_all : forall aux T, awf aux -> tab_inv T ->
  (forall k c n, In (k, (c, n)) aux -> c <> NaN /\ (exists r, n = Fin r) /\ lgexp c <= numv T (fst k) (snd k)) ->
  let T' := updatePars T aux in
  tab_inv T' /\ (forall s t, numv T' s t = match aget pairdec (s, t) aux with Some (c, n) => numv T s t - lgexp c + lgexp n | None => numv T s t end) /\
  (forall s t, getLexNumer T' s t <> None <-> getLexNumer T s t <> None \/ (exists c n, aget pairdec (s, t) aux = Some (c, n) /\ c <> n)).
Proof.
  induction aux as [|[[s t] [c n]] aux IH]; intros T W I H.
  - cbn. split; [exact I|]. split; [reflexivity|]. intros. split; [auto|]. intros [A|(c & n & A & _)]; [exact A|discriminate].
  - cbn [updatePars fold_left]. destruct (H (s, t) c n (or_introl eq_refl)) as (Hc & Hn & Hle). cbn [fst snd] in Hle.
    destruct (update_one_inv T s t c n I Hc Hn Hle) as (I1 & V1 & O1 & P1). set (T1 := update_one T (s, t, (c, n))) in *.
    assert (Nin : ~ In (s, t) (map fst aux)) by (inversion W; assumption). assert (Wa : awf aux) by (inversion W; assumption).
    assert (Oth : forall s' t', (s', t') <> (s, t) -> numv T1 s' t' = numv T s' t') by (intros; unfold numv; rewrite O1; auto).
    destruct (IH T1 Wa I1) as (I2 & V2 & P2).
    { intros k c' n' Hk. destruct (H k c' n' (or_intror Hk)) as (A & B & C). split; [exact A|]. split; [exact B|]. rewrite Oth; [exact C|].
      destruct k; cbn. intros E. apply Nin. rewrite <- E. apply (in_map fst) in Hk. exact Hk. }
    fold (updatePars T1 aux) in *. cbv zeta. split; [exact I2|]. assert (Ga : aget pairdec (s, t) aux = None) by (apply aget_none; exact Nin).
    split; intros s' t'; cbn [aget].
    + rewrite V2. destruct (pairdec (s', t') (s, t)) as [E|Nk]; [inversion E; subst; rewrite Ga; exact V1|]. rewrite Oth by exact Nk. reflexivity.
    + rewrite P2. destruct (pairdec (s', t') (s, t)) as [E|Nk].
      * inversion E; subst. rewrite Ga. split.
        -- intros [A|(c' & n' & A & _)]; [|discriminate]. destruct (getLexNumer T s t) eqn:G; [left; discriminate|]. right. exists c, n. split; [reflexivity|]. intros ->.
           apply A. unfold T1, update_one. destruct Hn as [r ->]. cbn [lgneqb]. destruct (Req_EM_T r r); [exact G|congruence].
        -- intros [A|(c' & n' & A & B)]; left; apply P1; [right; exact A|left; inversion A; subst; exact B].
      * rewrite O1 by exact Nk. reflexivity.
Qed.
(** pts in terms of the values *)
Lemma pts_val : forall T s t, tab_inv T -> pts T s t = numv T s t / denv T s /\ (getLexNumer T s t <> None -> 0 < pts T s t).
Proof.
  intros T s t I. unfold pts, unsmoothed_logpts, numv, denv. destruct (getLexNumer T s t) as [l|] eqn:E.
  - destruct (ti_num T I _ _ _ E) as [r ->]. pose proof (ti_both T I _ _ _ E) as B. destruct (getLexDenom T s) as [d|] eqn:Ed; [|congruence]. destruct (ti_den T I _ _ Ed) as [rd ->].
    destruct (lgsub_fin (Fin r) (Fin rd)) as [A _]; [discriminate..|]. split; [exact A|]. intros _. cbn. apply exp_pos.
  - split; [cbn; unfold Rdiv; lra|congruence].
Qed.
Lemma sum_pts : forall T s, tab_inv T -> getLexDenom T s <> None -> sumf (fun e => if N.eq_dec (fst (fst e)) s then pts T s (snd (fst e)) else 0) (tnum T) = 1.
Proof.
  intros T s I H. assert (D : 0 < denv T s).
  { unfold denv. destruct (getLexDenom T s) eqn:E; [|congruence]. destruct (ti_den T I _ _ E) as [r ->]. apply exp_pos. }
  rewrite (sumf_ext _ (fun e => of_src s e * / denv T s)).
  - rewrite sumf_scal_r, <- (ti_sum T I). field. lra.
  - intros [[s' t'] l] Hin. unfold of_src. cbn [fst snd]. destruct (N.eq_dec s' s) as [->|]; [|lra]. destruct (pts_val T s t' I) as [-> _].
    unfold numv, getLexNumer. rewrite (aget_in pairdec _ _ _ (ti_wf T I) Hin). reflexivity.
Qed.
