From Coq Require Import Reals NArith Arith List Bool Sorted Permutation Lra Lia.
From Verif Require Import AMap LogNum LogNumProofs RSums Ibm1TrainProofs Ibm2Model NdProofs MrModel MrSpec MrProofs.
Import ListNotations.
Open Scope R_scope.
Lemma Forall2_impl : forall {A B} (P Q : A -> B -> Prop) la lb, (forall a b, P a b -> Q a b) -> Forall2 P la lb -> Forall2 Q la lb.
Proof. intros A B P Q la lb H F. induction F; constructor; auto. Qed.
Section TB.
Context {K1 K2 : Type}.
Variable lt1 : K1 -> K1 -> bool.
Variable lt2 : K2 -> K2 -> bool.
Variable d1 : forall a b : K1, {a = b} + {a <> b}.
Variable d2 : forall a b : K2, {a = b} + {a <> b}.
Hypothesis O1 : total_order lt1.
Hypothesis O2 : total_order lt2.
Notation record := (rec K1 K2).
Notation tab := (ndtab K1 K2).
Definition key (r : record) : K1 * K2 := (rs r, rt r).
Lemma le_nodup_strict : forall f, lefile lt1 lt2 f -> NoDup (map key f) -> strictly_sorted lt1 lt2 f.
Proof.
  intros f S0. induction S0 as [|a f S0 IH F]; intros ND; [constructor|]. cbn in ND. inversion ND as [|? ? Ni ND']; subst. constructor; [apply IH, ND'|].
  rewrite Forall_forall in *. intros b Hb. specialize (F b Hb). apply after_false in F; [|assumption..]. destruct F as [F|[F1 F2]]; [exact F|]. exfalso. apply Ni, in_map_iff. exists b. unfold key. split; [congruence|exact Hb].
Qed.
Definition row (T : tab) (e : (K1 * K2) * lg) : record := {| rs := fst (fst e); rt := snd (fst e); rn := snd e; rd := denom_or_zero d1 T (fst (fst e)) |}.
Lemma listing : forall T f g, tab_inv d1 d2 T -> print_table d1 T f -> sort_tool lt1 lt2 f g ->
  strictly_sorted lt1 lt2 g /\ consistent g /\ (forall s t, has g s t <-> getNumer d1 d2 T s t <> None) /\ (forall s t, count_of d1 d2 g s t = numv d1 d2 T s t) /\ (forall s, total_of d1 g s = denv d1 T s).
Proof.
  intros T f g Iv P [Pg S0]. assert (P' : Permutation g (map (row T) (ndn T))) by (eapply Permutation_trans; [apply Permutation_sym, Pg|exact P]).
  assert (Ig : forall r, In r g -> getNumer d1 d2 T (rs r) (rt r) = Some (rn r) /\ getDenom d1 T (rs r) = Some (rd r)).
  { intros r Hr. apply (Permutation_in _ P') in Hr. apply in_map_iff in Hr as ([[s t] n] & <- & He). cbn. assert (G : getNumer d1 d2 T s t = Some n) by (apply aget_in; [apply (ti_wf _ _ _ Iv)|exact He]). split; [exact G|].
    unfold denom_or_zero. pose proof (ti_both _ _ _ Iv _ _ _ G) as B. destruct (getDenom d1 T s); [reflexivity|congruence]. }
  assert (Gi : forall s t n, getNumer d1 d2 T s t = Some n -> exists r, In r g /\ rs r = s /\ rt r = t).
  { intros s t n G. apply aget_some_in in G. exists (row T ((s, t), n)). split; [|split; reflexivity]. apply (Permutation_in _ (Permutation_sym P')), in_map, G. }
  assert (ND : NoDup (map key g)).
  { apply (Permutation_NoDup (l := map key (map (row T) (ndn T)))); [apply Permutation_map, Permutation_sym, P'|]. rewrite map_map. rewrite (map_ext _ fst) by (intros [[? ?] ?]; reflexivity). apply (ti_wf _ _ _ Iv). }
  assert (Ss : strictly_sorted lt1 lt2 g) by (apply le_nodup_strict; assumption).
  assert (Cg : consistent g).
  { intros r Hr. destruct (Ig r Hr) as [A B]. split; [apply (ti_num _ _ _ Iv _ _ _ A)|]. split; [apply (ti_den _ _ _ Iv _ _ B)|]. intros r' Hr' E. destruct (Ig r' Hr') as [_ B']. rewrite E in B'. congruence. }
  assert (Hh : forall s t, has g s t <-> getNumer d1 d2 T s t <> None).
  { intros s t. split; [intros (r & Hr & <- & <-); rewrite (proj1 (Ig r Hr)); discriminate|]. intros H. destruct (getNumer d1 d2 T s t) as [n|] eqn:G; [|congruence]. destruct (Gi _ _ _ G) as (r & R). exists r. exact R. }
  split; [exact Ss|]. split; [exact Cg|]. split; [exact Hh|]. split.
  - intros s t. unfold numv. destruct (getNumer d1 d2 T s t) as [n|] eqn:G.
    + destruct (Gi _ _ _ G) as (r & R & <- & <-). rewrite (count_in lt1 lt2 d1 d2 O1 O2) by assumption. rewrite (proj1 (Ig r R)) in G. congruence.
    + apply count_none. rewrite Hh. congruence.
  - intros s. destruct (in_dec d1 s (map rs g)) as [X|X].
    + apply in_map_iff in X as (r & <- & Hr). rewrite (total_in d1 g r Cg Hr). unfold denv. rewrite (proj2 (Ig r Hr)). reflexivity.
    + rewrite total_none by (intros r Hr E; apply X, in_map_iff; eauto). rewrite (ti_sum _ _ _ Iv). symmetry. apply sum_zero. intros [[s' t] n] He. unfold of_src. cbn. destruct (d1 s' s) as [->|]; [|reflexivity]. exfalso. apply X, in_map_iff.
      exists (row T ((s, t), n)). split; [reflexivity|]. apply (Permutation_in _ (Permutation_sym P')), in_map, He.
Qed.
(** ---- loading *)
Notation setr := (fun T (r : record) => setNumDen d1 d2 T (rs r) (rt r) (rn r) (rd r)).
Lemma load_num : forall f (T0 : tab) s t n, (forall r, In r f -> rs r = s -> rt r = t -> rn r = n) -> (has f s t \/ getNumer d1 d2 T0 s t = Some n) -> getNumer d1 d2 (fold_left setr f T0) s t = Some n.
Proof.
  intros f. induction f as [|r f IH]; intros T0 s t n H C; [destruct C as [(r & [] & _)|C]; exact C|]. cbn. apply IH; [intros; apply H; [right; assumption|assumption..]|].
  unfold getNumer, setNumDen. cbn [ndn]. rewrite aget_aset. destruct (pd d1 d2 (s, t) (rs r, rt r)) as [E|N].
  - right. inversion E; subst. rewrite (H r (or_introl eq_refl) eq_refl eq_refl). reflexivity.
  - destruct C as [(r' & [<-|R] & R2 & R3)|C]; [congruence|left; exists r'; auto|right; exact C].
Qed.
Lemma load_num_none : forall f (T0 : tab) s t, ~ has f s t -> getNumer d1 d2 (fold_left setr f T0) s t = getNumer d1 d2 T0 s t.
Proof.
  intros f. induction f as [|r f IH]; intros T0 s t H; [reflexivity|]. cbn. rewrite IH by (intros (r' & R & R'); apply H; exists r'; split; [right; exact R|exact R']).
  unfold getNumer, setNumDen. cbn [ndn]. rewrite aget_aset. destruct (pd d1 d2 (s, t) (rs r, rt r)) as [E|N]; [|reflexivity]. exfalso. apply H. exists r. inversion E. split; [left; reflexivity|auto].
Qed.
Lemma load_den : forall f (T0 : tab) s d, (forall r, In r f -> rs r = s -> rd r = d) -> ((exists r, In r f /\ rs r = s) \/ getDenom d1 T0 s = Some d) -> getDenom d1 (fold_left setr f T0) s = Some d.
Proof.
  intros f. induction f as [|r f IH]; intros T0 s d H C; [destruct C as [(r & [] & _)|C]; exact C|]. cbn. apply IH; [intros; apply H; [right; assumption|assumption..]|].
  unfold getDenom, setNumDen. cbn [ndd]. rewrite aget_aset. destruct (d1 s (rs r)) as [E|N].
  - right. rewrite (H r (or_introl eq_refl) (eq_sym E)). reflexivity.
  - destruct C as [(r' & [<-|R] & R2)|C]; [congruence|left; exists r'; auto|right; exact C].
Qed.
Lemma load_ok : forall f, strictly_sorted lt1 lt2 f -> consistent f -> forall s t,
  (getNumer d1 d2 (load_table d1 d2 f) s t <> None <-> has f s t) /\ prob d1 d2 (load_table d1 d2 f) s t = count_of d1 d2 f s t / total_of d1 f s.
Proof.
  intros f S0 C s t. destruct (in_dec (pd d1 d2) (s, t) (map key f)) as [X|X].
  - apply in_map_iff in X as (r & E & Hr). unfold key in E. inversion E; subst s t. assert (Hs : has f (rs r) (rt r)) by (exists r; auto).
    assert (G : getNumer d1 d2 (load_table d1 d2 f) (rs r) (rt r) = Some (rn r)).
    { unfold load_table. apply load_num; [|left; exact Hs]. intros r' R E1 E2. f_equal. eapply (strict_unique lt1 lt2 O1 O2); eauto. }
    assert (G' : getDenom d1 (load_table d1 d2 f) (rs r) = Some (rd r)). { unfold load_table. apply load_den; [|left; exists r; auto]. intros r' R E1. apply (C r Hr); assumption. }
    split; [rewrite G; split; [intros; exact Hs|discriminate]|]. unfold prob, logprob. rewrite G, G', (count_in lt1 lt2 d1 d2 O1 O2), (total_in d1) by assumption.
    destruct (C r Hr) as ([x ->] & [y ->] & _). apply lgsub_fin; discriminate.
  - assert (X' : ~ has f s t) by (intros (r & R1 & R2 & R3); apply X, in_map_iff; exists r; unfold key; split; [congruence|exact R1]).
    assert (G : getNumer d1 d2 (load_table d1 d2 f) s t = None) by (unfold load_table; rewrite load_num_none by exact X'; reflexivity).
    split; [rewrite G; tauto|]. unfold prob, logprob. rewrite G, count_none by exact X'. cbn. unfold Rdiv. ring.
Qed.
(** ---- merged listings *)
Lemma denv_ts : forall (T : tab) s ts, tab_inv d1 d2 T -> NoDup ts -> (forall t, getNumer d1 d2 T s t <> None -> In t ts) -> denv d1 T s = sumf (numv d1 d2 T s) ts.
Proof. intros T s ts I ND H. rewrite (ti_sum _ _ _ I). rewrite (by_target d1 d2 s ts _ (ti_wf _ _ _ I) ND H). reflexivity. Qed.
Lemma sumf_forall2 : forall {A B} (f : A -> R) (g : B -> R) la lb, Forall2 (fun a b => f a = g b) la lb -> sumf f la = sumf g lb.
Proof. intros A B f g la lb H. induction H; [reflexivity|]. cbn. congruence. Qed.
Lemma merged : forall Ts gs (T : tab) out, Forall2 (fun Ti g => tab_inv d1 d2 Ti /\ exists f, print_table d1 Ti f /\ sort_tool lt1 lt2 f g) Ts gs -> tab_inv d1 d2 T ->
  (forall s t, numv d1 d2 T s t = sumf (fun Ti => numv d1 d2 Ti s t) Ts) -> (forall s t, getNumer d1 d2 T s t <> None <-> exists Ti, In Ti Ts /\ getNumer d1 d2 Ti s t <> None) ->
  merge_tool lt1 lt2 d1 d2 gs (Some out) ->
  strictly_sorted lt1 lt2 out /\ consistent out /\ (forall s t, has out s t <-> getNumer d1 d2 T s t <> None) /\ (forall s t, count_of d1 d2 out s t = numv d1 d2 T s t) /\ (forall s, total_of d1 out s = denv d1 T s).
Proof.
  intros Ts gs T out F Iv V Hn M.
  assert (F' : Forall2 (fun Ti g => tab_inv d1 d2 Ti /\ strictly_sorted lt1 lt2 g /\ consistent g /\ (forall s t, has g s t <-> getNumer d1 d2 Ti s t <> None) /\ (forall s t, count_of d1 d2 g s t = numv d1 d2 Ti s t) /\ (forall s, total_of d1 g s = denv d1 Ti s)) Ts gs).
  { eapply Forall2_impl; [|exact F]. intros Ti g (A & f & B & C). split; [exact A|]. eapply listing; eauto. }
  assert (Gs : forall g, In g gs -> strictly_sorted lt1 lt2 g /\ consistent g).
  { intros g Hg. clear -F' Hg. induction F' as [|? ? ? ? H F IH]; [destruct Hg|]. destruct Hg as [<-|Hg]; [tauto|auto]. }
  destruct (concat gs) as [|r0 c] eqn:Ec; [apply merge_empty in M; [discriminate|exact Ec]|].
  destruct (merge_correct lt1 lt2 d1 d2 O1 O2 gs (Some out) Gs) as (o & E & S1 & C1 & H1 & V1 & D1); [congruence|exact M|]. inversion E; subst o.
  split; [exact S1|]. split; [exact C1|]. split; [|split].
  - intros s t. rewrite H1, Hn. clear -F'. induction F' as [|Ti g Ts gs H F IH]; [split; intros (? & [] & _)|]. destruct H as (_ & _ & _ & H & _). split.
    + intros (x & [<-|X] & Y); [exists Ti; split; [left; reflexivity|apply H, Y]|]. destruct (proj1 IH) as (z & Z1 & Z2); [eauto|]. exists z. split; [right; exact Z1|exact Z2].
    + intros (x & [<-|X] & Y); [exists g; split; [left; reflexivity|apply H, Y]|]. destruct (proj2 IH) as (z & Z1 & Z2); [eauto|]. exists z. split; [right; exact Z1|exact Z2].
  - intros s t. rewrite V1, V. symmetry. apply sumf_forall2. eapply Forall2_impl; [|exact F']. intros Ti g (_ & _ & _ & _ & H & _). symmetry. apply H.
  - intros s. rewrite D1. set (ts := nodup d2 (map (fun e => snd (fst e)) (ndn T))).
    assert (Tt : forall t, getNumer d1 d2 T s t <> None -> In t ts). { intros t G. unfold ts. rewrite nodup_In. destruct (getNumer d1 d2 T s t) as [n|] eqn:E1; [|congruence]. apply aget_some_in in E1. apply in_map_iff. exists ((s, t), n). split; [reflexivity|exact E1]. }
    rewrite (denv_ts T s ts Iv (NoDup_nodup _ _) Tt). rewrite (sumf_ext (numv d1 d2 T s) (fun t => sumf (fun Ti => numv d1 d2 Ti s t) Ts)) by (intros; apply V). rewrite sumf_swap.
    symmetry. apply sumf_forall2. assert (Ti_ts : forall Ti, In Ti Ts -> forall t, getNumer d1 d2 Ti s t <> None -> In t ts) by (intros Ti X t Y; apply Tt, Hn; eauto).
    clear -F' Ti_ts. induction F' as [|Ti g Ts gs H F IH]; constructor; [|apply IH; intros; eapply Ti_ts; [right; eassumption|assumption]]. destruct H as (H0 & _ & _ & _ & _ & H). rewrite H. symmetry. apply denv_ts; [exact H0|apply NoDup_nodup|apply Ti_ts; left; reflexivity].
Qed.
(** ---- filtering *)
Definition kltk (a b : K1 * K2) : Prop := lt1 (fst a) (fst b) = true \/ (fst a = fst b /\ lt2 (snd a) (snd b) = true).
Definition wanted (filt : list (K1 * K2)) (r : record) : bool := if in_dec (pd d1 d2) (key r) filt then true else false.
Lemma filter_ok : forall tb filt, strictly_sorted lt1 lt2 tb -> StronglySorted kltk filt -> (forall k, In k filt -> In k (map key tb)) -> filter_tool d1 d2 tb filt = filter (wanted filt) tb.
Proof.
  assert (Ir : forall a b, kltk a b -> a <> b). { intros a b [H|[_ H]] ->; [rewrite (proj1 O1) in H|rewrite (proj1 O2) in H]; discriminate. }
  assert (Tr : forall a b c, kltk a b -> kltk b c -> kltk a c). { destruct O1 as (_ & T1 & _), O2 as (_ & T2 & _). intros a b c [A|[A A']] [B|[B B']]; unfold kltk; [left; eauto|left; congruence|left; congruence|right; split; [congruence|eauto]]. }
  intros tb. induction tb as [|r tb IH]; intros filt S0 Sf H.
  - destruct filt as [|[s t] filt]; reflexivity.
  - destruct filt as [|[sF tF] filt].
    + cbn [filter_tool]. symmetry. rewrite (filter_ext (wanted []) (fun _ => false)) by reflexivity. clear. induction (r :: tb); [reflexivity|exact IHl].
    + inversion S0 as [|? ? S1 F1]; subst. inversion Sf as [|? ? S2 F2]; subst. rewrite Forall_forall in F1, F2.
      assert (Fk : forall x, In x tb -> kltk (key r) (key x)) by (intros x X; exact (F1 x X)).
      assert (Dk : {key r = (sF, tF)} + {key r <> (sF, tF)}) by apply (pd d1 d2). destruct Dk as [E|N].
      * assert (W : wanted ((sF, tF) :: filt) r = true) by (unfold wanted; destruct (in_dec _ _ _) as [|N]; [reflexivity|exfalso; apply N; left; congruence]).
        unfold key in E. injection E as E1 E2. cbn [filter_tool filter]. rewrite W. destruct (d1 (rs r) sF); [|congruence]. destruct (d2 (rt r) tF); [|congruence]. f_equal. rewrite IH.
        -- apply filter_ext_in. intros x X. unfold wanted. specialize (Fk x X). apply Ir in Fk. destruct (in_dec (pd d1 d2) (key x) filt) as [I|I], (in_dec (pd d1 d2) (key x) ((sF, tF) :: filt)) as [J|J]; try reflexivity; exfalso.
           ++ apply J. right. exact I. ++ destruct J as [J|J]; [apply Fk; unfold key in *; congruence|contradiction].
        -- exact S1. -- exact S2.
        -- intros k Hk. pose proof (H k (or_intror Hk)) as Q. cbn in Q. destruct Q as [Q|Q]; [|exact Q]. exfalso. specialize (F2 k Hk). apply Ir in F2. apply F2. rewrite <- Q. unfold key. congruence.
      * assert (Fin' : forall k, In k ((sF, tF) :: filt) -> In k (map key tb) /\ k <> key r).
        { assert (Q : kltk (key r) (sF, tF)). { destruct (H (sF, tF) (or_introl eq_refl)) as [Q|Q]; [congruence|]. apply in_map_iff in Q as (x & <- & X). apply Fk, X. }
          assert (Nk : forall k, In k ((sF, tF) :: filt) -> key r <> k). { intros k [<-|Hk]; [exact N|]. apply Ir. eapply Tr; [exact Q|apply F2, Hk]. }
          intros k Hk. split; [|apply not_eq_sym, Nk, Hk]. destruct (H k Hk) as [Z|Z]; [destruct (Nk k Hk Z)|exact Z]. }
        assert (W : wanted ((sF, tF) :: filt) r = false) by (unfold wanted; destruct (in_dec _ _ _) as [I|]; [destruct (proj2 (Fin' _ I) eq_refl)|reflexivity]).
        assert (St : filter_tool d1 d2 (r :: tb) ((sF, tF) :: filt) = filter_tool d1 d2 tb ((sF, tF) :: filt)).
        { cbn [filter_tool]. destruct (d1 (rs r) sF) as [E1|]; [|reflexivity]. destruct (d2 (rt r) tF) as [E2|]; [|reflexivity]. exfalso. apply N. unfold key. congruence. }
        rewrite St. cbn [filter]. rewrite W. apply IH; [exact S1|exact Sf|intros k Hk; apply Fin', Hk].
Qed.
Lemma filter_strict : forall p f, strictly_sorted lt1 lt2 f -> strictly_sorted lt1 lt2 (filter p f).
Proof. intros p f S0. induction S0 as [|a f S0 IH F]; cbn; [constructor|]. destruct (p a); [|exact IH]. constructor; [exact IH|]. rewrite Forall_forall in *. intros x X. apply filter_In in X as [X _]. auto. Qed.
Lemma filter_prob : forall tb filt s t, strictly_sorted lt1 lt2 tb -> consistent tb -> StronglySorted kltk filt -> (forall k, In k filt -> In k (map key tb)) -> In (s, t) filt ->
  getNumer d1 d2 (load_table d1 d2 (filter_tool d1 d2 tb filt)) s t <> None /\ prob d1 d2 (load_table d1 d2 (filter_tool d1 d2 tb filt)) s t = prob d1 d2 (load_table d1 d2 tb) s t.
Proof.
  intros tb filt s t S0 C Sf H I. rewrite filter_ok by assumption. assert (S1 : strictly_sorted lt1 lt2 (filter (wanted filt) tb)) by (apply filter_strict, S0).
  assert (C1 : consistent (filter (wanted filt) tb)). { intros r Hr. apply filter_In in Hr as [Hr _]. destruct (C r Hr) as (A & B & D). split; [exact A|]. split; [exact B|]. intros r' Hr'. apply filter_In in Hr' as [Hr' _]. auto. }
  destruct (load_ok _ S1 C1 s t) as [A ->]. destruct (load_ok _ S0 C s t) as [_ ->].
  specialize (H _ I). apply in_map_iff in H as (r & E & Hr). assert (Hf : In r (filter (wanted filt) tb)). { apply filter_In. split; [exact Hr|]. unfold wanted. rewrite E. destruct (in_dec _ _ _); [reflexivity|contradiction]. }
  unfold key in E. inversion E; subst s t. split; [apply A; exists r; auto|]. rewrite !(count_in lt1 lt2 d1 d2 O1 O2), !(total_in d1) by assumption. reflexivity.
Qed.
Lemma listing_filter_sorted : forall g, strictly_sorted lt1 lt2 g -> StronglySorted kltk (gen_filter_info g).
Proof. intros g S0. induction S0 as [|a f S0 IH F]; cbn; constructor; [exact IH|]. rewrite Forall_forall in *. intros k Hk. apply in_map_iff in Hk as (r & <- & Hr). exact (F r Hr). Qed.
End TB.
