(** Lemmas about the parameter tables of Ibm2Model.v for arbitrary keys (the same development as Ibm1EmProofs.v, where keys are words). *)
From Coq Require Import Reals NArith Arith List Bool Lra Lia.
From Verif Require Import AMap MathModel LogNum LogNumProofs RSums Ibm1Spec Ibm1Model Ibm2Spec Ibm2Model.
Import ListNotations.
Open Scope R_scope.
Section TAB.
Context {K1 K2 : Type}.
Variable d1 : forall a b : K1, {a = b} + {a <> b}.
Variable d2 : forall a b : K2, {a = b} + {a <> b}.
(** ---- accumulation of the local statistics *)
Definition ev : Type := ((K1 * K2) * (lg * lg))%type.        (* word pair, old and new log contribution *)
Definition fill (aux : nd_aux K1 K2) (e : ev) : nd_aux K1 K2 :=
  match aget (pd d1 d2) (fst e) aux with
  | Some (c, n) => aset (pd d1 d2) (fst e) ((if lgneqb (fst (snd e)) LZ then lgsumlog c (fst (snd e)) else c), lgsumlog n (snd (snd e))) aux
  | None => aset (pd d1 d2) (fst e) (snd e) aux
  end.
Definition ok_ev (e : ev) : Prop := fst (snd e) <> NaN /\ exists r, snd (snd e) = Fin r.
Definition at_key (k : K1 * K2) (f : lg * lg -> R) (e : ev) : R := if (pd d1 d2) (fst e) k then f (snd e) else 0.
Definition curs (k : K1 * K2) (evs : list ev) : R := sumf (at_key k (fun v => lgexp (fst v))) evs.
Definition news (k : K1 * K2) (evs : list ev) : R := sumf (at_key k (fun v => lgexp (snd v))) evs.
Definition aux_inv (aux : nd_aux K1 K2) (evs : list ev) : Prop :=
  awf aux /\ forall k, match aget (pd d1 d2) k aux with
    | None => forall e, In e evs -> fst e <> k
    | Some (c, n) => c <> NaN /\ (exists r, n = Fin r) /\ lgexp c = curs k evs /\ lgexp n = news k evs
    end.
Lemma at_none : forall k f evs, (forall e : ev, In e evs -> fst e <> k) -> sumf (at_key k f) evs = 0.
Proof. intros k f evs H. rewrite (sumf_ext _ (fun _ => 0)); [apply sumf_0|]. intros e He. unfold at_key. destruct ((pd d1 d2) (fst e) k); [exfalso; eapply H; eauto|reflexivity]. Qed.
Lemma fill_inv : forall aux evs e, aux_inv aux evs -> ok_ev e -> aux_inv (fill aux e) (evs ++ [e]).
Proof.
  intros aux evs e [W I] [Oc [rn On]]. unfold fill. pose proof (I (fst e)) as Ie.
  destruct e as [ke [c1 n1]]. cbn [fst snd] in *. subst n1.
  destruct (aget (pd d1 d2) ke aux) as [[c n]|] eqn:G.
  - destruct Ie as (Hc & [r Hn] & Ec & En). subst n. split; [apply aset_wf, W|]. intros k. rewrite aget_aset. destruct ((pd d1 d2) k ke) as [->|Nk].
    + assert (Sn : lgexp (lgsumlog (Fin r) (Fin rn)) = lgexp (Fin r) + lgexp (Fin rn)) by (apply lgsumlog_exp; [discriminate|discriminate|left; discriminate]).
      unfold curs, news. rewrite !sumf_app. cbn [sumf]. unfold at_key at 2 4. cbn [fst snd]. destruct ((pd d1 d2) ke ke); [|congruence].
      fold (curs ke evs). fold (news ke evs). rewrite <- Ec, <- En.
      split; [|split; [eexists; reflexivity|split; [|rewrite Sn; lra]]].
      * destruct (lgneqb c1 LZ) eqn:Q; [|exact Hc]. apply lgsumlog_exp; [exact Hc|exact Oc|right]. intros ->. discriminate.
      * destruct (lgneqb c1 LZ) eqn:Q.
        -- destruct (lgsumlog_exp c c1 Hc Oc) as [E _]; [right; intros ->; discriminate|]. rewrite E. lra.
        -- destruct c1; cbn in Q; try discriminate. cbn. lra.
    + specialize (I k). destruct (aget (pd d1 d2) k aux) as [[c2 n2]|].
      * unfold curs, news in *. rewrite !sumf_app. cbn [sumf]. unfold at_key at 2 4. cbn [fst snd]. destruct ((pd d1 d2) ke k); [congruence|].
        destruct I as (A & B & C & D). split; [exact A|]. split; [exact B|]. split; [rewrite C; lra|rewrite D; lra].
      * intros e He. rewrite in_app_iff in He. destruct He as [He|[<-|[]]]; [now apply I|cbn; congruence].
  - split; [apply aset_wf, W|]. intros k. rewrite aget_aset. destruct ((pd d1 d2) k ke) as [->|Nk].
    + unfold curs, news. rewrite !sumf_app. rewrite !(at_none ke _ evs Ie). cbn [sumf]. unfold at_key. cbn [fst snd]. destruct ((pd d1 d2) ke ke); [|congruence].
      split; [exact Oc|]. split; [eexists; reflexivity|]. split; cbn; lra.
    + specialize (I k). destruct (aget (pd d1 d2) k aux) as [[c2 n2]|].
      * unfold curs, news in *. rewrite !sumf_app. cbn [sumf]. unfold at_key at 2 4. cbn [fst snd]. destruct ((pd d1 d2) ke k); [congruence|].
        destruct I as (A & B & C & D). split; [exact A|]. split; [exact B|]. split; [rewrite C; lra|rewrite D; lra].
      * intros e He. rewrite in_app_iff in He. destruct He as [He|[<-|[]]]; [now apply I|cbn; congruence].
Qed.
Lemma fill_all : forall evs' aux evs, aux_inv aux evs -> Forall ok_ev evs' -> aux_inv (fold_left fill evs' aux) (evs ++ evs').
Proof.
  induction evs' as [|e evs' IH]; intros aux evs I F; cbn; [now rewrite app_nil_r|]. inversion F; subst.
  replace (evs ++ e :: evs') with ((evs ++ [e]) ++ evs') by (rewrite <- app_assoc; reflexivity). apply IH; [apply fill_inv; assumption|assumption].
Qed.
(** ---- the table *)
Definition numv (T : ndtab K1 K2) (s : K1) (t : K2) : R := match getNumer d1 d2 T s t with Some l => lgexp l | None => 0 end.
Definition denv (T : ndtab K1 K2) (s : K1) : R := match getDenom d1 T s with Some l => lgexp l | None => 0 end.
Definition of_src (s : K1) (e : (K1 * K2) * lg) : R := if d1 (fst (fst e)) s then lgexp (snd e) else 0.
Record tab_inv (T : ndtab K1 K2) : Prop := {
  ti_wf : awf (ndn T);
  ti_num : forall s t l, getNumer d1 d2 T s t = Some l -> exists r, l = Fin r;
  ti_den : forall s l, getDenom d1 T s = Some l -> exists r, l = Fin r;
  ti_both : forall s t l, getNumer d1 d2 T s t = Some l -> getDenom d1 T s <> None;
  ti_sum : forall s, denv T s = sumf (of_src s) (ndn T) }.
Lemma tab_inv_empty : tab_inv nd_empty.
Proof. constructor; cbn; try discriminate; try constructor. Qed.
Lemma sum_aset : forall (g : (K1 * K2) * lg -> R) k v l,
  sumf g (aset (pd d1 d2) k v l) = sumf g l - (match aget (pd d1 d2) k l with Some x => g (k, x) | None => 0 end) + g (k, v).
Proof.
  intros g k v l. induction l as [|[k' v'] l IH]; cbn; [lra|]. destruct ((pd d1 d2) k k') as [->|N]; cbn; [lra|]. rewrite IH. lra.
Qed.
Lemma numv_le_denv : forall T s t, tab_inv T -> numv T s t <= denv T s.
Proof.
  intros T s t I. rewrite (ti_sum T I). unfold numv. destruct (getNumer d1 d2 T s t) as [l|] eqn:E.
  - unfold getNumer in E. apply aget_some_in in E. replace (lgexp l) with (of_src s ((s, t), l)) by (unfold of_src; cbn; destruct (d1 s s); [reflexivity|congruence]).
    apply sumf_ge_one; [|exact E]. intros e _. unfold of_src. destruct (d1 _ _); [apply lgexp_nonneg|lra].
  - apply sumf_nonneg. intros e _. unfold of_src. destruct (d1 _ _); [apply lgexp_nonneg|lra].
Qed.
Lemma update_one_inv : forall T s t c n, tab_inv T -> c <> NaN -> (exists r, n = Fin r) -> lgexp c <= numv T s t ->
  let T' := nd_update_one d1 d2 T ((s, t), (c, n)) in
  tab_inv T' /\ numv T' s t = numv T s t - lgexp c + lgexp n /\ (forall s' t', (s', t') <> (s, t) -> getNumer d1 d2 T' s' t' = getNumer d1 d2 T s' t') /\
  (c <> n \/ getNumer d1 d2 T s t <> None -> getNumer d1 d2 T' s t <> None).
Proof.
  intros T s t c n I Hc [rn ->] Hle. cbn [nd_update_one].
  destruct (lgneqb c (Fin rn)) eqn:Q.
  2:{ assert (c = Fin rn) by (apply lgneqb_spec in Q; [exact Q|exact Hc|discriminate]). subst c. cbv zeta. split; [exact I|]. split; [lra|]. split; [reflexivity|]. intros [A|A]; [congruence|exact A]. }
  set (nu := match getNumer d1 d2 T s t with Some x => x | None => LZ end). set (de := match getDenom d1 T s with Some x => x | None => LZ end).
  assert (Hnu : nu <> NaN /\ lgexp nu = numv T s t).
  { unfold nu, numv. destruct (getNumer d1 d2 T s t) eqn:E; [|split; [discriminate|reflexivity]]. destruct (ti_num T I _ _ _ E) as [r ->]. split; [discriminate|reflexivity]. }
  assert (Hde : de <> NaN /\ lgexp de = denv T s).
  { unfold de, denv. destruct (getDenom d1 T s) eqn:E; [|split; [discriminate|reflexivity]]. destruct (ti_den T I _ _ E) as [r ->]. split; [discriminate|reflexivity]. }
  destruct Hnu as [Nnu Vnu]. destruct Hde as [Nde Vde].
  destruct (lgsublog_exp nu c Nnu Hc ltac:(lra)) as [S1 S2].
  assert (Nf : Fin rn <> NaN) by discriminate. assert (Nz : Fin rn <> LZ) by discriminate.
  destruct (lgsumlog_exp (lgsublog nu c) (Fin rn) S2 Nf (or_intror Nz)) as (A1 & A2 & A3).
  fold (obtainLogNewSuffStat nu c (Fin rn)) in A1, A2, A3. set (nn := obtainLogNewSuffStat nu c (Fin rn)) in *.
  assert (Hd1 : exists dx, (if lgneqb nu LZ then lgsublog de nu else de) = dx /\ dx <> NaN /\ lgexp dx = denv T s - numv T s t).
  { eexists. split; [reflexivity|]. pose proof (numv_le_denv T s t I). destruct (lgneqb nu LZ) eqn:Z.
    - destruct (lgsublog_exp de nu Nde Nnu ltac:(lra)) as [B1 B2]. split; [exact B2|]. rewrite B1. lra.
    - assert (nu = LZ) by (apply lgneqb_spec in Z; [exact Z|exact Nnu|discriminate]). split; [exact Nde|]. rewrite Vde. rewrite <- Vnu, H0. cbn. lra. }
  destruct Hd1 as (dx & -> & D1 & D2).
  destruct (lgsumlog_exp dx nn D1 A2 (or_intror A3)) as (B1 & B2 & B3). set (dd := lgsumlog dx nn) in *.
  cbv zeta. assert (GN : forall s' t', getNumer d1 d2 (setNumDen d1 d2 T s t nn dd) s' t' = if (pd d1 d2) (s', t') (s, t) then Some nn else getNumer d1 d2 T s' t') by (intros; unfold getNumer; cbn; apply aget_aset).
  assert (GD : forall s', getDenom d1 (setNumDen d1 d2 T s t nn dd) s' = if d1 s' s then Some dd else getDenom d1 T s') by (intros; unfold getDenom; cbn; apply aget_aset).
  assert (Fn : exists r, nn = Fin r) by (destruct nn; [congruence|congruence|eauto]). assert (Fd : exists r, dd = Fin r) by (destruct dd; [congruence|congruence|eauto]).
  split; [constructor|split; [|split]].
  - apply aset_wf, (ti_wf T I).
  - intros s' t' l. rewrite GN. destruct ((pd d1 d2) _ _); [intros E; inversion E; subst; exact Fn|apply (ti_num T I)].
  - intros s' l. rewrite GD. destruct (d1 _ _); [intros E; inversion E; subst; exact Fd|apply (ti_den T I)].
  - intros s' t' l. rewrite GN, GD. destruct (d1 s' s); [discriminate|]. destruct ((pd d1 d2) _ _); [congruence|]. apply (ti_both T I).
  - intros s'. cbn [setNumDen ndn]. rewrite sum_aset. fold (getNumer d1 d2 T s t). rewrite <- (ti_sum T I). unfold denv. rewrite GD. unfold of_src. cbn [fst snd].
    destruct (d1 s' s) as [->|Ns].
    + destruct (d1 s s); [|congruence]. fold (denv T s). rewrite B1, D2. unfold numv. destruct (getNumer d1 d2 T s t); reflexivity.
    + destruct (d1 s s'); [congruence|]. destruct (getNumer d1 d2 T s t); lra.
  - unfold numv at 1. rewrite GN. destruct ((pd d1 d2) _ _); [|congruence]. rewrite A1, S1, Vnu. reflexivity.
  - intros s' t' Nk. rewrite GN. destruct ((pd d1 d2) _ _); [congruence|reflexivity].
  - intros _. rewrite GN. destruct ((pd d1 d2) _ _); [discriminate|congruence].
Qed.
Lemma update_all : forall aux T, awf aux -> tab_inv T ->
  (forall k c n, In (k, (c, n)) aux -> c <> NaN /\ (exists r, n = Fin r) /\ lgexp c <= numv T (fst k) (snd k)) ->
  let T' := nd_update d1 d2 T aux in
  tab_inv T' /\ (forall s t, numv T' s t = match aget (pd d1 d2) (s, t) aux with Some (c, n) => numv T s t - lgexp c + lgexp n | None => numv T s t end) /\
  (forall s t, getNumer d1 d2 T' s t <> None <-> getNumer d1 d2 T s t <> None \/ (exists c n, aget (pd d1 d2) (s, t) aux = Some (c, n) /\ c <> n)).
Proof.
  induction aux as [|[[s t] [c n]] aux IH]; intros T W I H.
  - cbn. split; [exact I|]. split; [reflexivity|]. intros. split; [auto|]. intros [A|(c & n & A & _)]; [exact A|discriminate].
  - cbn [nd_update fold_left]. destruct (H (s, t) c n (or_introl eq_refl)) as (Hc & Hn & Hle). cbn [fst snd] in Hle.
    destruct (update_one_inv T s t c n I Hc Hn Hle) as (I1 & V1 & O1 & P1). set (T1 := nd_update_one d1 d2 T (s, t, (c, n))) in *.
    assert (Nin : ~ In (s, t) (map fst aux)) by (inversion W; assumption). assert (Wa : awf aux) by (inversion W; assumption).
    assert (Oth : forall s' t', (s', t') <> (s, t) -> numv T1 s' t' = numv T s' t') by (intros; unfold numv; rewrite O1; auto).
    destruct (IH T1 Wa I1) as (I2 & V2 & P2).
    { intros k c' n' Hk. destruct (H k c' n' (or_intror Hk)) as (A & B & C). split; [exact A|]. split; [exact B|]. rewrite Oth; [exact C|].
      destruct k; cbn. intros E. apply Nin. rewrite <- E. apply (in_map fst) in Hk. exact Hk. }
    fold (nd_update d1 d2 T1 aux) in *. cbv zeta. split; [exact I2|]. assert (Ga : aget (pd d1 d2) (s, t) aux = None) by (apply aget_none; exact Nin).
    split; intros s' t'; cbn [aget].
    + rewrite V2. destruct ((pd d1 d2) (s', t') (s, t)) as [E|Nk]; [inversion E; subst; rewrite Ga; exact V1|]. rewrite Oth by exact Nk. reflexivity.
    + rewrite P2. destruct ((pd d1 d2) (s', t') (s, t)) as [E|Nk].
      * inversion E; subst. rewrite Ga. split.
        -- intros [A|(c' & n' & A & _)]; [|discriminate]. destruct (getNumer d1 d2 T s t) eqn:G; [left; discriminate|]. right. exists c, n. split; [reflexivity|]. intros ->.
           apply A. unfold T1, nd_update_one. destruct Hn as [r ->]. cbn [lgneqb]. destruct (Req_EM_T r r); [exact G|congruence].
        -- intros [A|(c' & n' & A & B)]; left; apply P1; [right; exact A|left; inversion A; subst; exact B].
      * rewrite O1 by exact Nk. reflexivity.
Qed.
(** pts in terms of the values *)
Lemma prob_val : forall T s t, tab_inv T -> prob d1 d2 T s t = numv T s t / denv T s /\ (getNumer d1 d2 T s t <> None -> 0 < prob d1 d2 T s t).
Proof.
  intros T s t I. unfold prob, logprob, numv, denv. destruct (getNumer d1 d2 T s t) as [l|] eqn:E.
  - destruct (ti_num T I _ _ _ E) as [r ->]. pose proof (ti_both T I _ _ _ E) as B. destruct (getDenom d1 T s) as [d|] eqn:Ed; [|congruence]. destruct (ti_den T I _ _ Ed) as [rd ->].
    destruct (lgsub_fin (Fin r) (Fin rd)) as [A _]; [discriminate..|]. split; [exact A|]. intros _. cbn. apply exp_pos.
  - split; [cbn; unfold Rdiv; lra|congruence].
Qed.
Lemma sum_prob : forall T s, tab_inv T -> getDenom d1 T s <> None -> sumf (fun e => if d1 (fst (fst e)) s then prob d1 d2 T s (snd (fst e)) else 0) (ndn T) = 1.
Proof.
  intros T s I H. assert (D : 0 < denv T s).
  { unfold denv. destruct (getDenom d1 T s) eqn:E; [|congruence]. destruct (ti_den T I _ _ E) as [r ->]. apply exp_pos. }
  rewrite (sumf_ext _ (fun e => of_src s e * / denv T s)).
  - rewrite sumf_scal_r, <- (ti_sum T I). field. lra.
  - intros [[s' t'] l] Hin. unfold of_src. cbn [fst snd]. destruct (d1 s' s) as [->|]; [|lra]. destruct (prob_val T s t' I) as [-> _].
    unfold numv, getNumer. rewrite (aget_in (pd d1 d2) _ _ _ (ti_wf T I) Hin). reflexivity.
Qed.
Lemma aux_in : forall aux evs k c n, aux_inv aux evs -> In (k, (c, n)) aux -> c <> NaN /\ (exists r, n = Fin r) /\ lgexp c = curs k evs /\ lgexp n = news k evs.
Proof. intros aux evs k c n [W I] H. specialize (I k). rewrite (aget_in (pd d1 d2) _ _ _ W H) in I. exact I. Qed.
(** ---- relative frequencies *)
Lemma sum_point : forall (ts : list K2) (t0 : K2) v, NoDup ts -> In t0 ts -> sumf (fun t => if d2 t t0 then v else 0) ts = v.
Proof.
  intros ts t0 v ND. induction ND as [|x l Hx ND IH]; intros I; [destruct I|]. cbn [sumf]. destruct (d2 x t0) as [->|Nx].
  - rewrite (sumf_ext _ (fun _ => 0)); [rewrite sumf_0; lra|]. intros y Hy. destruct (d2 y t0); [subst; contradiction|reflexivity].
  - destruct I as [->|I]; [congruence|]. rewrite IH by exact I. lra.
Qed.
Lemma by_target : forall s ts (l : list ((K1 * K2) * lg)), awf l -> NoDup ts -> (forall t, aget (pd d1 d2) (s, t) l <> None -> In t ts) ->
  sumf (of_src s) l = sumf (fun t => match aget (pd d1 d2) (s, t) l with Some v => lgexp v | None => 0 end) ts.
Proof.
  intros s ts l W ND. induction l as [|[[s' t'] v] l IH]; intros H; [cbn; symmetry; apply sumf_0|]. cbn [sumf]. inversion W as [|? ? Nin W']; subst.
  assert (G : aget (pd d1 d2) (s', t') l = None) by (apply aget_none; exact Nin).
  rewrite IH.
  - unfold of_src. cbn [fst snd]. destruct (d1 s' s) as [->|Ns].
    + assert (I : In t' ts) by (apply H; cbn [aget]; destruct ((pd d1 d2) (s, t') (s, t')); [discriminate|congruence]).
      rewrite <- (sum_point ts t' (lgexp v) ND I) at 1. rewrite <- sumf_plus. apply sumf_ext. intros t _. cbn [aget]. destruct (d2 t t') as [->|Nt].
      * rewrite G. destruct ((pd d1 d2) (s, t') (s, t')); [lra|congruence].
      * destruct ((pd d1 d2) (s, t) (s, t')); [congruence|lra].
    + rewrite Rplus_0_l. apply sumf_ext. intros t _. cbn [aget]. destruct ((pd d1 d2) (s, t) (s', t')); [congruence|reflexivity].
  - exact W'.
  - intros t Ht. apply H. cbn [aget]. destruct ((pd d1 d2) (s, t) (s', t')); [discriminate|exact Ht].
Qed.
Lemma prob_rel : forall T s t ts, tab_inv T -> NoDup ts -> (forall t, getNumer d1 d2 T s t <> None -> In t ts) -> prob d1 d2 T s t = numv T s t / sumf (numv T s) ts.
Proof.
  intros T s t ts I ND H. destruct (prob_val T s t I) as [-> _]. f_equal. rewrite (ti_sum T I). rewrite (by_target s ts _ (ti_wf T I) ND H). reflexivity.
Qed.
End TAB.
