(** Proofs about the decoder's search. *)
From Coq Require Import ZArith Arith List Bool Lia Sorted Permutation.
From Verif Require Import AMap StackSpec StackModel SearchStackProofs SearchSpec SearchModel.
Import ListNotations.
Open Scope nat_scope.

Section Search.
Variables (H : Type) (enc : H -> nat) (dec : nat -> H).
Variables (st : H -> nat) (cl : H -> nat * nat) (heur : H -> Z) (dist : H -> nat) (complete : H -> bool) (succs : H -> list (H * Z)).
Variable null : H * Z.
Variables (bf prune : bool) (I MAXIT : nat) (GEPS LOWEST WORST : Z).
Hypothesis dec_enc : forall h, dec (enc h) = h.
Variables (start : H) (s0 : Z).
Notation ok := (from_start H succs start).
Variable size : H -> nat.
Hypothesis fin : finite_space H succs start size.
Variable J : nat.
Hypothesis dist_ok : forall h, ok h -> dist h <= J /\ (complete h = true <-> dist h = J).
Hypothesis cl_ok : bf = true -> forall h, ok h -> fst (cl h) = dist h.

Notation ext := (extends H succs).
Notation stk_of := (in_stack H enc st cl).
Notation push := (push H enc st cl heur dist complete bf prune GEPS LOWEST).
Notation pop := (pop H dec heur dist complete bf GEPS).
Notation select := (select H dec heur dist complete bf GEPS).
Notation push_all := (push_all H enc st cl heur dist complete bf prune GEPS LOWEST).
Notation expand := (expand H succs).
Notation process := (process H enc st cl heur dist complete succs bf prune GEPS LOWEST).
Notation decode_loop := (decode_loop H enc dec st cl heur dist complete succs bf prune I GEPS LOWEST).
Notation whyp := (whyp H).

Definition f (h : H) (s : Z) : Z := (s + heur h + (if bf then gval H dist GEPS h else 0))%Z.
Definition reach (h : H) (s : Z) : Prop := exists e, ext start h e /\ s = (s0 + e)%Z.
Lemma reach_step : forall h s h' e, reach h s -> In (h', e) (succs h) -> reach h' (s + e)%Z.
Proof. intros h s h' e (x & E & ->) Q. exists (x + e)%Z. split; [econstructor; eauto|lia]. Qed.
Lemma reach_ext : forall h s c e, reach h s -> ext h c e -> reach c (s + e)%Z.
Proof.
  intros h s c e R E. induction E as [|b e c x E IH Q]; [now rewrite Z.add_0_r|]. rewrite Z.add_assoc. eapply reach_step; eauto.
Qed.
Lemma reach_ok : forall h s, reach h s -> ok h.
Proof. intros h s (e & E & _). now exists e. Qed.
Hint Resolve reach_ok : core.
Definition item (h : H) (s : Z) : hyp := stk_of (h, f h s).
Lemma item_inj : forall h s h' s', item h s = item h' s' -> h = h' /\ s = s'.
Proof.
  intros h s h' s' E. unfold item, in_stack in E. cbn [fst snd] in E. inversion E as [[A B C D]]. apply (f_equal dec) in D. rewrite !dec_enc in D. subst.
  split; auto. unfold f in A. lia.
Qed.
(** invariant *)
Definition Inv (D : decoder) : Prop := SInv (cont D) /\
  (forall g, In g (stored (cont D)) -> exists h s, g = item h s /\ reach h s) /\
  (forall t i sc, aget Nat.eq_dec t (sdict (cont D)) = Some (i, sc) -> exists h s, reach h s /\ t = st h /\ sc = f h s) /\
  (bestComplete D = WORST \/ exists c s, reach c s /\ complete c = true /\ bestComplete D = f c s).
Definition gsize (g : hyp) : nat := size (dec (hdata g)).
Definition W (D : decoder) : nat := list_sum (map gsize (stored (cont D))).
Lemma size_pos : forall h, ok h -> 1 <= size h.
Proof. intros h O. rewrite fin by auto. lia. Qed.
Lemma gsize_item : forall h s, gsize (item h s) = size h.
Proof. intros. unfold gsize, item, in_stack. cbn. now rewrite dec_enc. Qed.
Lemma sum_perm : forall (l l' : list nat), Permutation l l' -> list_sum l = list_sum l'.
Proof. intros l l' P. unfold list_sum. induction P; cbn [fold_right]; lia. Qed.
Lemma len_W : forall D, Inv D -> length (stored (cont D)) <= W D.
Proof.
  intros D (_ & A & _). unfold W. induction (stored (cont D)) as [|g l IH]; cbn; auto. assert (1 <= gsize g).
  { destruct (A g (or_introl eq_refl)) as (h & s & -> & R). rewrite gsize_item. apply size_pos. eauto. }
  assert (length l <= list_sum (map gsize l)) by (apply IH; intros; apply A; now right). unfold list_sum in *. lia.
Qed.

Lemma push_eq : forall h s D, push (h, s) D = if (LOWEST <=? s)%Z then if negb prune || (bestComplete D <=? f h s)%Z then
    match ms_push (item h s) (cont D) with
    | None => None
    | Some (b, M) => Some {| cont := M; bestComplete := if b && complete h then f h s else bestComplete D |}
    end else Some D else Some D.
Proof.
  intros h s D. unfold SearchModel.push, addHeuristic, addg, item, f. cbn [fst snd]. destruct bf; cbn [fst snd]; [reflexivity|]. now rewrite Z.add_0_r.
Qed.
Definition sub (D D' : decoder) (g0 : hyp) : Prop := forall g, In g (stored (cont D')) -> g = g0 \/ In g (stored (cont D)).
Lemma push_ok : forall w D, Inv D -> reach (fst w) (snd w) -> exists D', push w D = Some D' /\ Inv D' /\ W D' <= W D + size (fst w) /\
  mmax (cont D') = mmax (cont D) /\ bfirst (cont D') = bfirst (cont D) /\ sub D D' (item (fst w) (snd w)).
Proof.
  intros [h s] D IV R. cbn [fst snd] in *. rewrite push_eq.
  destruct (Z.leb_spec LOWEST s); [|exists D; split; [reflexivity|split; [exact IV|split; [lia|split; [reflexivity|split; [reflexivity|intros g Q; now right]]]]]].
  destruct (negb prune || (bestComplete D <=? f h s)%Z); [|exists D; split; [reflexivity|split; [exact IV|split; [lia|split; [reflexivity|split; [reflexivity|intros g Q; now right]]]]]].
  pose proof IV as (SV & A & B & C).
  destruct (push_spec (cont D) (item h s) SV) as (b & M' & E & SV' & X1 & X2 & (kept & gone & P1 & P2) & HB & DD & _). rewrite E.
  assert (SUB : forall g, In g (stored M') -> g = item h s \/ In g (stored (cont D))).
  { intros g Ig. destruct P2 as [P2|P2]; apply (Permutation_in _ P2) in Ig.
    - right. apply (Permutation_in _ (Permutation_sym P1)). apply in_app_iff. auto.
    - destruct Ig as [<-|Ig]; auto. right. apply (Permutation_in _ (Permutation_sym P1)). apply in_app_iff. auto. }
  eexists. split; [reflexivity|]. split; [|split; [|split; [exact X1|split; [exact X2|exact SUB]]]].
  - split; [exact SV'|]. cbn [cont bestComplete]. split; [|split].
    + intros g Ig. destruct (SUB g Ig) as [->|Ig']; [exists h, s; auto|auto].
    + intros t i sc Q. destruct (DD t i sc Q) as [(i' & Q')|[-> ->]]; [eapply B; eauto|exists h, s; auto].
    + destruct (b && complete h) eqn:Q; [|exact C]. apply andb_true_iff in Q. right. exists h, s. tauto.
  - unfold W. cbn [cont]. assert (S1 : list_sum (map gsize (stored (cont D))) = list_sum (map gsize kept) + list_sum (map gsize gone)).
    { rewrite (sum_perm _ _ (Permutation_map gsize P1)), map_app, list_sum_app. reflexivity. }
    destruct P2 as [P2|P2]; rewrite (sum_perm _ _ (Permutation_map gsize P2)); [lia|]. cbn [map list_sum fold_right]. rewrite gsize_item. unfold list_sum in *. lia.
Qed.

(** which hypothesis is taken *)
Definition takes (D : decoder) (h : H) (s : Z) : Prop :=
  (bf = false -> bfirst (cont D) = false -> forall h' s', In (item h' s') (stored (cont D)) -> (f h' s' <= f h s)%Z) /\
  (bf = true -> complete h = true -> forall h' s', In (item h' s') (stored (cont D)) -> complete h' = true /\ (f h' s' <= f h s)%Z).
Lemma complete_cls : bf = true -> forall a b, ok a -> ok b -> complete a = true -> cls_lt (cl a) (cl b) \/ cl b = cl a -> complete b = true.
Proof.
  intros EB a b Oa Ob Ca L. apply dist_ok; auto. destruct (dist_ok a Oa) as [_ [Da _]]. specialize (Da Ca). destruct (dist_ok b Ob) as [Lb _].
  rewrite <- (cl_ok EB a Oa) in Da. rewrite <- (cl_ok EB b Ob) in *. destruct L as [L| ->]; [destruct L as [L|[L _]]|]; lia.
Qed.
Lemma pop_ok : forall D, Inv D -> ms_isempty (cont D) = false -> exists h s D', pop D = Some ((h, s), D') /\ Inv D' /\ reach h s /\
  Permutation (stored (cont D)) (item h s :: stored (cont D')) /\ mmax (cont D') = mmax (cont D) /\ (bf = false -> bfirst (cont D') = bfirst (cont D)) /\ takes D h s.
Proof.
  intros D IV NE. pose proof IV as (SV & A & B & C). unfold SearchModel.pop. unfold subtractHeuristic, subtractg, from_stack.
  assert (BACK : forall h s, (dec (hdata (item h s)), (hscore (item h s) - (if bf then gval H dist GEPS (dec (hdata (item h s))) else 0) - heur (dec (hdata (item h s))))%Z) = (h, s)).
  { intros h s. unfold item, in_stack. cbn [hdata hscore fst snd]. rewrite dec_enc. f_equal. unfold f. lia. }
  destruct (bool_dec bf true) as [EB|EB'].
  - rewrite EB in BACK |- *.
    assert (SVt : SInv (set_bf true (cont D))) by (now apply SInv_bf).
    destruct (top_spec (set_bf true (cont D)) 0%Z SVt eq_refl NE) as (t & Et & It & Mt). change (stored (set_bf true (cont D))) with (stored (cont D)) in *. rewrite Et.
    destruct (A t It) as (ht & sct & -> & Rt). assert (Dt : dec (hdata (item ht sct)) = ht) by (unfold item, in_stack; cbn; apply dec_enc). rewrite Dt. cbn [fst snd].
    assert (LTT : forall g, In g (stored (cont D)) -> cls_lt (cl ht) (hclass g) \/ hclass g = cl ht) by (intros g Q; destruct (Mt g Q) as [L|[L _]]; [left|right]; unfold item, in_stack in L; cbn in L; auto).
    destruct (complete ht) eqn:Ct.
    + destruct (pop_spec (set_bf false (set_bf true (cont D))) ltac:(now apply SInv_bf) NE) as (g & M' & E & SV' & X1 & X2 & X3 & P & Bf & _). rewrite E.
      change (stored (set_bf false (set_bf true (cont D)))) with (stored (cont D)) in *.
      assert (Ig : In g (stored (cont D))) by (apply (Permutation_in _ (Permutation_sym P)); now left). destruct (A g Ig) as (h & s & -> & R).
      exists h, s. eexists. cbn [fst snd]. rewrite BACK. split; [reflexivity|]. split; [|split; [exact R|split; [exact P|split; [exact X1|split; [intro; congruence|]]]]].
      * split; [now apply SInv_bf|]. cbn [cont bestComplete]. split; [|split; [|exact C]].
        -- intros g Q. apply A. apply (Permutation_in _ (Permutation_sym P)). now right.
        -- intros t i sc Q. change (sdict (set_bf true M')) with (sdict M') in Q. rewrite X3 in Q. eapply B; eauto.
      * split; [intro; congruence|]. intros _ _ h' s' Q. split; [apply (complete_cls EB ht); eauto; [|apply (LTT _ Q)]; destruct (A _ Q) as (h2 & s2 & E2 & R2); apply item_inj in E2; destruct E2 as [-> ->]; eauto|].
        apply (Bf eq_refl) in Q. unfold item, in_stack in Q. cbn in Q. exact Q.
    + destruct (pop_spec (set_bf true (cont D)) SVt NE) as (g & M' & E & SV' & X1 & X2 & X3 & P & _ & Bt). rewrite E.
      change (stored (set_bf true (cont D))) with (stored (cont D)) in *.
      assert (Ig : In g (stored (cont D))) by (apply (Permutation_in _ (Permutation_sym P)); now left). destruct (A g Ig) as (h & s & -> & R).
      exists h, s. eexists. cbn [fst snd]. rewrite BACK. split; [reflexivity|]. split; [|split; [exact R|split; [exact P|split; [exact X1|split; [intro; congruence|]]]]].
      * split; [exact SV'|]. cbn [cont bestComplete]. split; [|split; [|exact C]].
        -- intros g Q. apply A. apply (Permutation_in _ (Permutation_sym P)). now right.
        -- intros t i sc Q. rewrite X3 in Q. eapply B; eauto.
      * split; [intro; congruence|]. intros _ Ch. exfalso. assert (Q : complete ht = true); [|congruence].
        apply (complete_cls EB h); eauto. destruct (Bt eq_refl _ It) as [L|[L _]]; unfold item, in_stack in L; cbn in L; auto.
  - assert (EB : bf = false) by (destruct bf; congruence). rewrite EB in BACK |- *.
    destruct (pop_spec (cont D) SV NE) as (g & M' & E & SV' & X1 & X2 & X3 & P & Bf & _). rewrite E.
    assert (Ig : In g (stored (cont D))) by (apply (Permutation_in _ (Permutation_sym P)); now left). destruct (A g Ig) as (h & s & -> & R).
    exists h, s. eexists. cbn [fst snd]. specialize (BACK h s). rewrite Z.sub_0_r in BACK. rewrite BACK. split; [reflexivity|].
    split; [|split; [exact R|split; [exact P|split; [exact X1|split; [auto|]]]]].
    + split; [exact SV'|]. cbn [cont bestComplete]. split; [|split; [|exact C]].
      * intros g Q. apply A. apply (Permutation_in _ (Permutation_sym P)). now right.
      * intros t i sc Q. rewrite X3 in Q. eapply B; eauto.
    + split; [|intro; congruence]. intros _ F h' s' Q. apply (Bf F) in Q. unfold item, in_stack in Q. cbn in Q. exact Q.
Qed.
Lemma pop_W : forall D D' h s, Permutation (stored (cont D)) (item h s :: stored (cont D')) -> W D = size h + W D'.
Proof. intros D D' h s P. unfold W. rewrite (sum_perm _ _ (Permutation_map gsize P)). cbn [map list_sum fold_right]. now rewrite gsize_item. Qed.

(** ** selecting, expanding *)
Definition wsum (ws : list whyp) : nat := list_sum (map (fun w => size (fst w)) ws).
Definition allreach (ws : list whyp) : Prop := Forall (fun w => reach (fst w) (snd w)) ws.
Definition keeps (D D' : decoder) : Prop := mmax (cont D') = mmax (cont D) /\ (bf = false -> bfirst (cont D') = bfirst (cont D)).
Lemma keeps_trans : forall A B C, keeps A B -> keeps B C -> keeps A C.
Proof. intros A B C [] []. split; intros; [congruence|]. rewrite H3, H1; auto. Qed.
Lemma select_ok : forall n D, Inv D -> exists ws D', select n D = Some (ws, D') /\ Inv D' /\ allreach ws /\ W D = wsum ws + W D' /\ keeps D D' /\
  (n <> 0 -> ws = [] -> stored (cont D) = [] /\ D' = D).
Proof.
  induction n as [|n IH]; intros D IV; cbn [SearchModel.select].
  - exists [], D. split; [auto|]. split; [exact IV|]. split; [constructor|]. split; [reflexivity|]. split; [split; auto|]. congruence.
  - destruct (ms_isempty (cont D)) eqn:Q.
    + exists [], D. pose proof IV as (SV & _). apply (proj1 (empty_stored _ SV)) in Q. split; [auto|]. split; [exact IV|]. split; [constructor|]. split; [reflexivity|]. split; [split; auto|]. auto.
    + destruct (pop_ok D IV Q) as (h & s & D1 & E & IV1 & R & P & X1 & X2 & _). rewrite E. destruct (IH D1 IV1) as (ws & D2 & E2 & IV2 & A2 & W2 & K2 & _). rewrite E2.
      exists ((h, s) :: ws), D2. split; [reflexivity|]. split; [auto|]. split; [constructor; auto|]. split; [rewrite (pop_W _ _ _ _ P), W2; unfold wsum; cbn; unfold list_sum in *; lia|].
      split; [eapply keeps_trans; [split; eauto|auto]|]. intros _ X. discriminate.
Qed.
Lemma push_all_ok : forall ws D, Inv D -> allreach ws -> exists D', push_all ws D = Some D' /\ Inv D' /\ W D' <= W D + wsum ws /\ keeps D D' /\
  (forall g, In g (stored (cont D')) -> In g (stored (cont D)) \/ exists w, In w ws /\ g = item (fst w) (snd w)).
Proof.
  induction ws as [|w ws IH]; intros D IV A; cbn [SearchModel.push_all].
  - exists D. split; [auto|]. split; [exact IV|]. split; [unfold wsum; cbn; unfold list_sum in *; lia|]. split; [split; auto|]. auto.
  - inversion A; subst. destruct (push_ok w D IV H2) as (D1 & E1 & IV1 & W1 & X1 & X2 & S1). rewrite E1.
    destruct (IH D1 IV1 H3) as (D2 & E2 & IV2 & W2 & K2 & S2). exists D2. split; [auto|]. split; [auto|].
    split; [unfold wsum in *; cbn; unfold list_sum in *; lia|]. split; [eapply keeps_trans; [split; eauto|auto]|].
    intros g Q. destruct (S2 g Q) as [Q1|(w' & Iw & ->)]; [|right; exists w'; split; [now right|auto]].
    destruct (S1 g Q1) as [->|Q2]; [right; exists w; split; [now left|auto]|auto].
Qed.
Lemma expand_reach : forall w, reach (fst w) (snd w) -> allreach (rev (expand w)).
Proof.
  intros w R. apply Forall_forall. intros x Q. apply in_rev in Q. unfold SearchModel.expand in Q. apply in_map_iff in Q. destruct Q as ((h, e) & <- & Q). cbn [fst snd].
  eapply reach_step; eauto.
Qed.
Lemma wsum_expand : forall w, ok (fst w) -> S (wsum (rev (expand w))) = size (fst w).
Proof.
  intros w O. rewrite (fin (fst w)) by auto. f_equal. unfold wsum, SearchModel.expand. rewrite map_rev, (sum_perm _ _ (Permutation_sym (Permutation_rev _))), map_map. reflexivity.
Qed.
Definition good (result : whyp) : Prop := result = null \/ reach (fst result) (snd result).
Lemma process_ok : forall ws found result D, Inv D -> allreach ws -> good result -> (found = true -> complete (fst result) = true /\ ok (fst result)) ->
  exists found' result' D', process ws found result D = Some (found', result', D') /\ Inv D' /\ good result' /\ keeps D D' /\
    (found' = true -> complete (fst result') = true) /\ (found = true -> found' = true /\ result' = result) /\ W D' <= W D + wsum ws /\
    (found' = false -> W D' + length ws <= W D + wsum ws).
Proof.
  induction ws as [|[h s] ws IH]; intros found result D IV A GR FR; cbn [SearchModel.process].
  - exists found, result, D. split; [auto|]. split; [exact IV|]. split; [auto|]. split; [split; auto|]. split; [apply FR|]. split; [auto|]. split; [lia|]. intros _. unfold wsum. cbn. lia.
  - inversion A; subst. cbn [fst snd] in *. destruct (complete h) eqn:Ch.
    + destruct found; cbn [negb].
      * destruct (push_ok (h, s) D IV H2) as (D1 & E1 & IV1 & W1 & X1 & X2 & _). rewrite E1.
        destruct (IH true result D1 IV1 H3 GR FR) as (f' & r' & D' & E' & IV' & G' & K' & F' & FF' & L' & M'). exists f', r', D'.
        split; [auto|]. split; [auto|]. split; [auto|]. split; [eapply keeps_trans; [split; eauto|auto]|]. split; [auto|]. split; [auto|].
        split; [unfold wsum in *; cbn; cbn in W1; unfold list_sum in *; lia|]. intro Q. destruct (FF' eq_refl). congruence.
      * destruct (IH true (h, s) D IV H3 (or_intror H2) (fun _ => conj Ch (reach_ok _ _ H2))) as (f' & r' & D' & E' & IV' & G' & K' & F' & FF' & L' & M'). exists f', r', D'.
        split; [auto|]. split; [auto|]. split; [auto|]. split; [auto|]. split; [auto|]. split; [discriminate|].
        split; [unfold wsum in *; cbn; unfold list_sum in *; lia|]. intro Q. destruct (FF' eq_refl). congruence.
    + set (result1 := if dist (fst result) <? dist h then (h, s) else if (dist (fst result) =? dist h) && (snd result <? s)%Z then (h, s) else result).
      assert (G1 : good result1). { unfold result1. destruct (_ <? _); [now right|]. destruct (_ && _); [now right|auto]. }
      assert (FR1 : found = true -> result1 = result).
      { intro F. destruct (FR F) as [FR' OR]. apply dist_ok in FR'; auto. unfold result1. assert (dist h < J). { destruct (dist_ok h ltac:(eauto)) as [L [_ E]]. destruct (Nat.eq_dec (dist h) J) as [X|X]; [apply E in X; congruence|lia]. }
        destruct (Nat.ltb_spec (dist (fst result)) (dist h)); [lia|]. destruct (Nat.eqb_spec (dist (fst result)) (dist h)); [lia|reflexivity]. }
      destruct (push_all_ok (rev (expand (h, s))) D IV (expand_reach (h, s) H2)) as (D1 & E1 & IV1 & W1 & K1 & _). rewrite E1.
      destruct (IH found result1 D1 IV1 H3 G1) as (f' & r' & D' & E' & IV' & G' & K' & F' & FF' & L' & M').
      { intro F. rewrite (FR1 F). auto. }
      exists f', r', D'. split; [exact E'|]. split; [auto|]. split; [auto|]. split; [eapply keeps_trans; eauto|]. split; [auto|].
      split; [intro F; destruct (FF' F) as [-> ->]; auto|]. pose proof (wsum_expand (h, s) ltac:(cbn; eauto)) as WE. cbn [fst] in WE.
      split; [unfold wsum in *; cbn; unfold list_sum in *; lia|]. intro Q. specialize (M' Q). unfold wsum in *. cbn. unfold list_sum in *. lia.
Qed.
Theorem decode_loop_ok : forall todo iter result D, I <> 0 -> Inv D -> good result -> exists result' it D',
  decode_loop todo iter result D = Some (result', it, D') /\ Inv D' /\ good result' /\ keeps D D' /\ W D' <= W D /\ it <= iter + S (W D) /\
  (it < iter + todo -> complete (fst result') = true \/ stored (cont D') = []).
Proof.
  induction todo as [|todo IH]; intros iter result D NI IV GR; cbn [SearchModel.decode_loop].
  - exists result, iter, D. split; [auto|]. split; [exact IV|]. split; [auto|]. split; [split; auto|]. split; [lia|]. split; [lia|]. lia.
  - destruct (select_ok I D IV) as (ws & D1 & E1 & IV1 & A1 & W1 & K1 & N1). rewrite E1. destruct ws as [|w ws].
    + destruct (N1 NI eq_refl) as [SE ->]. exists result, (S iter), D. split; [auto|]. split; [exact IV|]. split; [auto|]. split; [split; auto|]. split; [lia|]. split; [lia|]. auto.
    + destruct (process_ok (w :: ws) false result D1 IV1 A1 GR ltac:(discriminate)) as (f' & r' & D2 & E2 & IV2 & G2 & K2 & F2 & _ & L2 & M2). rewrite E2. destruct f'.
      * exists r', (S iter), D2. split; [auto|]. split; [auto|]. split; [auto|]. split; [eapply keeps_trans; eauto|]. split; [lia|]. split; [lia|auto].
      * specialize (M2 eq_refl). cbn [length] in M2. destruct (IH (S iter) r' D2 NI IV2 G2) as (r & it & D3 & E3 & IV3 & G3 & K3 & Q3 & L3 & C3).
        exists r, it, D3. split; [auto|]. split; [auto|]. split; [auto|]. split; [eapply keeps_trans; [|eauto]; eapply keeps_trans; eauto|].
        split; [lia|]. split; [lia|]. intro Q. apply C3. lia.
Qed.

(** ** order of the translations (I = 1) *)
Lemma ext_cons : forall a b x c e, In (b, x) (succs a) -> ext b c e -> ext a c (x + e)%Z.
Proof.
  intros a b x c e Q E. induction E as [|b' e' c' f' E IH Q'].
  - rewrite Z.add_0_r. change x with (0 + x)%Z. econstructor; [constructor|auto].
  - rewrite Z.add_assoc. econstructor; eauto.
Qed.
Lemma ext_first : forall a c e, ext a c e -> (a = c /\ e = 0%Z) \/ exists b x e', In (b, x) (succs a) /\ ext b c e' /\ e = (x + e')%Z.
Proof.
  intros a c e E. induction E as [|b e c x E IH Q]; [auto|]. right. destruct IH as [[<- ->]|(b1 & x1 & e1 & Q1 & E1 & ->)].
  - exists c, x, 0%Z. split; [auto|]. split; [constructor|lia].
  - exists b1, x1, (e1 + x)%Z. split; [auto|]. split; [econstructor; eauto|lia].
Qed.
Hypothesis heur_complete : forall c, ok c -> complete c = true -> heur c = 0%Z.
Hypothesis final : forall c, ok c -> complete c = true -> succs c = [].
Lemma ext_final : forall a c e, ok a -> complete a = true -> ext a c e -> a = c /\ e = 0%Z.
Proof. intros a c e Oa Ca E. destruct (ext_first _ _ _ E) as [X|(b & x & e' & Q & _)]; auto. rewrite (final a Oa Ca) in Q. destruct Q. Qed.
Lemma stored_ok : forall D, Inv D -> forall h s, In (item h s) (stored (cont D)) -> ok h.
Proof. intros D (_ & A & _) h s Q. destruct (A _ Q) as (h2 & s2 & E2 & R2). apply item_inj in E2. destruct E2 as [-> ->]. eauto. Qed.
Definition capped (B : Z) (D : decoder) : Prop := forall h s c e, In (item h s) (stored (cont D)) -> ext h c e -> complete c = true -> (s + e <= B)%Z.
Definition flag_ok (D : decoder) : Prop := bf = false -> bfirst (cont D) = false /\ admissible H succs complete start heur.
Lemma flag_keeps : forall D D', keeps D D' -> flag_ok D -> flag_ok D'.
Proof. intros D D' [_ K] F EB. destruct (F EB). rewrite (K EB). auto. Qed.
Lemma takes_capped : forall D D' h s, Inv D -> flag_ok D -> takes D h s -> complete h = true -> Permutation (stored (cont D)) (item h s :: stored (cont D')) -> capped s D'.
Proof.
  intros D D' h s IV F [T1 T2] Ch P h' s' c e Q E Cc. assert (Q' : In (item h' s') (stored (cont D))) by (apply (Permutation_in _ (Permutation_sym P)); now right).
  assert (Oh' : ok h') by (eapply stored_ok; eauto). assert (Oh : ok h) by (apply (stored_ok D IV h s); apply (Permutation_in _ (Permutation_sym P)); now left).
  destruct (bool_dec bf true) as [EB|EB].
  - destruct (T2 EB Ch _ _ Q') as [Ch' L]. destruct (ext_final _ _ _ Oh' Ch' E) as [<- ->]. unfold f in L. rewrite (heur_complete _ Oh Ch), (heur_complete _ Oh' Ch') in L.
    assert (DE : dist h = dist h') by (apply dist_ok in Ch; auto; apply dist_ok in Ch'; auto; congruence). unfold gval in L. rewrite DE in L. lia.
  - assert (EB' : bf = false) by (destruct bf; congruence). destruct (F EB') as [F1 F2]. specialize (T1 EB' F1 _ _ Q'). specialize (F2 _ _ _ Oh' E Cc).
    unfold f in T1. rewrite EB', (heur_complete _ Oh Ch) in T1. lia.
Qed.
Lemma capped_expand : forall B D D' h s, capped B D -> (forall c e, ext h c e -> complete c = true -> (s + e <= B)%Z) ->
  (forall g, In g (stored (cont D')) -> In g (stored (cont D)) \/ exists w, In w (rev (expand (h, s))) /\ g = item (fst w) (snd w)) -> capped B D'.
Proof.
  intros B D D' h s CP CH S h' s' c e Q E Cc. destruct (S _ Q) as [Q1|(w & Iw & Q1)]; [eapply CP; eauto|]. apply item_inj in Q1. destruct Q1 as [-> ->].
  apply in_rev in Iw. unfold SearchModel.expand in Iw. apply in_map_iff in Iw. destruct Iw as ((b, x) & <- & Ib). cbn [fst snd] in *.
  specialize (CH c (x + e)%Z (ext_cons _ _ _ _ _ Ib E) Cc). lia.
Qed.
Definition better (result : whyp) (h : H) (s : Z) : whyp :=
  if dist (fst result) <? dist h then (h, s) else if (dist (fst result) =? dist h) && (snd result <? s)%Z then (h, s) else result.
Lemma better_incomplete : forall result h s, complete (fst result) = false -> complete h = false -> complete (fst (better result h s)) = false.
Proof. intros. unfold better. destruct (_ <? _); auto. destruct (_ && _); auto. Qed.
Lemma decode1_order : I = 1 -> forall todo iter result D r it D', Inv D -> good result -> complete (fst result) = false -> flag_ok D ->
  decode_loop todo iter result D = Some (r, it, D') ->
  (complete (fst r) = true -> capped (snd r) D') /\ (forall B, capped B D -> capped B D' /\ (complete (fst r) = true -> (snd r <= B)%Z)).
Proof.
  intros EI. induction todo as [|todo IH]; intros iter result D r it D' IV GR RI F E; cbn [SearchModel.decode_loop] in E.
  - inversion E; subst. split; [congruence|]. intros B CP. split; [auto|congruence].
  - replace (select I D) with (select 1 D) in E by (now rewrite EI). cbn [SearchModel.select] in E. destruct (ms_isempty (cont D)) eqn:Q.
    { inversion E; subst. split; [congruence|]. intros B CP. split; [auto|congruence]. }
    destruct (pop_ok D IV Q) as (h & s & D1 & E1 & IV1 & R & P & X1 & X2 & T). rewrite E1 in E. cbn [SearchModel.process] in E. cbn [fst snd] in E.
    assert (IH0 : In (item h s) (stored (cont D))) by (apply (Permutation_in _ (Permutation_sym P)); now left).
    assert (SUB : forall B, capped B D -> capped B D1).
    { intros B CP h' s' c e Q' Ex Cc. eapply CP; eauto. apply (Permutation_in _ (Permutation_sym P)). now right. }
    destruct (complete h) eqn:Ch; cbn [negb] in E.
    + inversion E; subst. cbn [fst snd]. split.
      * intros _. apply (takes_capped D D' h s); auto.
      * intros B CP. split; [now apply SUB|]. intros _. specialize (CP h s h 0%Z IH0 ltac:(constructor) Ch). lia.
    + fold (better result h s) in E.
      destruct (push_all_ok (rev (expand (h, s))) D1 IV1 (expand_reach (h, s) R)) as (D2 & E2 & IV2 & W2 & K2 & S2). rewrite E2 in E. cbv iota beta in E.
      assert (G1 : good (better result h s)). { unfold better. destruct (_ <? _); [now right|]. destruct (_ && _); [now right|auto]. }
      assert (F2 : flag_ok D2). { apply (flag_keeps D); auto. eapply keeps_trans; [split; eauto|auto]. }
      destruct (IH (S iter) (better result h s) D2 r it D' IV2 G1 (better_incomplete _ _ _ RI Ch) F2 E) as [C1 C2]. split; [auto|].
      intros B CP. apply C2. eapply capped_expand; [apply SUB; exact CP| |exact S2]. intros c e Ex Cc. eapply CP; eauto.
Qed.

(** ** the best translation (I = 1, enough room) *)
Hypothesis lowest : forall h s, reach h s -> (LOWEST <= s)%Z.
Hypothesis states : sound_states H succs complete start st heur dist.
Variable C : Z.
Hypothesis best : best_score H succs complete start s0 C.
Hypothesis pruning : prune = true -> bf = false /\ (WORST <= C)%Z.
Lemma reach_le : forall c s, reach c s -> complete c = true -> (s <= C)%Z.
Proof. intros c s (e & E & ->) Cc. apply best in E; auto. Qed.
Lemma ok_ext : forall a c e, ok a -> ext a c e -> ok c.
Proof. intros a c e (x & X) E. destruct (reach_ext a (s0 + x)%Z c e (ex_intro _ x (conj X eq_refl)) E) as (y & Y & _). now exists y. Qed.
Lemma ext_state : forall a a' c e, ok a -> ok a' -> st a = st a' -> ext a c e -> exists c', ext a' c' e /\ st c = st c'.
Proof.
  intros a a' c e Oa Oa' S E. induction E as [|b e c x E IH Q]; [exists a'; split; [constructor|auto]|]. destruct IH as (b' & E' & S').
  destruct (states b b' (ok_ext _ _ _ Oa E) (ok_ext _ _ _ Oa' E') S') as (_ & _ & _ & N). destruct (N c x Q) as (d & Q' & S2). exists d. split; [econstructor; eauto|auto].
Qed.
(** [h] with score [s] can still be completed into a best translation *)
Definition hopeful (h : H) (s : Z) : Prop := exists c e, ext h c e /\ complete c = true /\ (s + e = C)%Z.
Lemma hopeful_state : forall h s h' s', ok h -> reach h' s' -> st h = st h' -> (s <= s')%Z -> hopeful h s -> (s' = s)%Z /\ hopeful h' s'.
Proof.
  intros h s h' s' Oh R S L (c & e & E & Cc & Q). destruct (ext_state _ _ _ _ Oh (reach_ok _ _ R) S E) as (c' & E' & S'). destruct (states c c' (ok_ext _ _ _ Oh E) (ok_ext _ _ _ (reach_ok _ _ R) E') S') as (Cc' & _).
  rewrite Cc in Cc'. symmetry in Cc'. pose proof (reach_le _ _ (reach_ext _ _ _ _ R E') Cc') as L'. assert (s' = s) by lia. split; auto. exists c', e. repeat split; auto. lia.
Qed.
Lemma f_state : forall h s h' s', ok h -> ok h' -> st h = st h' -> (f h s <= f h' s' <-> s <= s')%Z.
Proof. intros h s h' s' Oh Oh' S. destruct (states h h' Oh Oh' S) as (_ & Hh & Hd & _). unfold f, gval. rewrite Hh, Hd. destruct bf; lia. Qed.
Definition promising (D : decoder) : Prop := exists h s, In (item h s) (stored (cont D)) /\ reach h s /\ hopeful h s.
Lemma push_full : forall h s D D', Inv D -> reach h s -> W D < mmax (cont D) -> (bf = false -> admissible H succs complete start heur) -> push (h, s) D = Some D' ->
  (promising D \/ hopeful h s -> promising D').
Proof.
  intros h s D D' IV R RM AD E PR. pose proof (len_W D IV) as LW. pose proof IV as (SV & A & B & CC). rewrite push_eq in E.
  destruct (Z.leb_spec LOWEST s) as [_|X]; [|specialize (lowest h s R); lia].
  destruct (negb prune || (bestComplete D <=? f h s)%Z) eqn:PG.
  - destruct (push_spec (cont D) (item h s) SV) as (b & M' & E1 & SV' & X1 & X2 & _ & _ & _ & ACC & KEEP). rewrite E1 in E. inversion E; subst. clear E.
    specialize (ACC ltac:(lia)). specialize (KEEP ltac:(lia)). unfold promising. cbn [cont]. destruct PR as [(h1 & s1 & I1 & R1 & O1)|O].
    + destruct (KEEP _ I1) as [K|(KS & KL & KI)]; [eauto|]. exists h, s. split; [auto|]. split; [auto|].
      unfold item, in_stack in KS, KL. cbn in KS, KL. apply (proj1 (f_state _ _ _ _ (reach_ok _ _ R1) (reach_ok _ _ R) KS)) in KL. apply (hopeful_state h1 s1 h s (reach_ok _ _ R1) R KS KL O1).
    + destruct ACC as [K|(i & sc & Q & L)]; [eauto|]. exfalso. destruct (B _ _ _ Q) as (h2 & s2 & R2 & S2 & ->).
      unfold item, in_stack in S2, L. cbn in S2, L. assert (s <= s2)%Z by (apply (proj1 (f_state h s h2 s2 (reach_ok _ _ R) (reach_ok _ _ R2) S2)); lia).
      destruct (hopeful_state h s h2 s2 (reach_ok _ _ R) R2 S2 H0 O) as [-> _]. assert (f h2 s <= f h s)%Z by (apply (proj2 (f_state h2 s h s (reach_ok _ _ R2) (reach_ok _ _ R) (eq_sym S2))); lia). lia.
  - (* pruned: then it cannot be hopeful *)
    inversion E; subst. destruct PR as [PR|(c & e & Ex & Cc & Q)]; [auto|]. exfalso. apply orb_false_iff in PG. destruct PG as [P1 P2]. apply negb_false_iff in P1.
    destruct (pruning P1) as [EB WC]. apply Z.leb_gt in P2. specialize (AD EB _ _ _ (reach_ok _ _ R) Ex Cc). unfold f in P2. rewrite EB in P2.
    destruct CC as [CW|(c2 & s2 & R2 & C2 & BC)]; [rewrite CW in P2; lia|]. rewrite BC in P2. unfold f in P2. rewrite EB, (heur_complete _ (reach_ok _ _ R2) C2) in P2. pose proof (reach_le _ _ R2 C2). lia.
Qed.
Lemma push_all_full : forall ws D, Inv D -> allreach ws -> W D + wsum ws <= mmax (cont D) -> (bf = false -> admissible H succs complete start heur) ->
  (promising D \/ exists w, In w ws /\ hopeful (fst w) (snd w)) -> forall D', push_all ws D = Some D' -> promising D'.
Proof.
  induction ws as [|[h s] ws IH]; intros D IV A RM AD PR D' E; cbn [SearchModel.push_all] in E.
  - inversion E; subst. destruct PR as [|(w & [] & _)]; auto.
  - inversion A; subst. cbn [fst snd] in *. destruct (push_ok (h, s) D IV H2) as (D1 & E1 & IV1 & W1 & X1 & X2 & _). rewrite E1 in E. cbn [fst] in W1.
    pose proof (size_pos h (reach_ok _ _ H2)) as SP. unfold wsum in RM. cbn in RM. unfold list_sum in RM.
    pose proof (push_full h s D D1 IV H2 ltac:(lia) AD E1) as PF. apply (IH D1); auto.
    + unfold wsum, list_sum. rewrite X1. lia.
    + destruct PR as [PR|(w & [<-|Iw] & O)]; [left; auto|left; auto|right; eauto].
Qed.
Theorem decode1_best : I = 1 -> forall todo iter result D, Inv D -> good result -> complete (fst result) = false -> flag_ok D -> promising D ->
  W D <= mmax (cont D) -> W D <= todo ->
  exists r it D', decode_loop todo iter result D = Some (r, it, D') /\ complete (fst r) = true /\ snd r = C /\ reach (fst r) (snd r).
Proof.
  intros EI. induction todo as [|todo IH]; intros iter result D IV GR RI F PR RM LT; cbn [SearchModel.decode_loop].
  - exfalso. destruct PR as (h & s & Q & _). pose proof (len_W D IV). destruct (stored (cont D)); [destruct Q|cbn in *; lia].
  - replace (select I D) with (select 1 D) by (now rewrite EI). cbn [SearchModel.select]. destruct (ms_isempty (cont D)) eqn:Q.
    { exfalso. destruct IV as (SV & _). apply (empty_stored _ SV) in Q. destruct PR as (h & s & Q' & _). rewrite Q in Q'. destruct Q'. }
    destruct (pop_ok D IV Q) as (h & s & D1 & E1 & IV1 & R & P & X1 & X2 & T). rewrite E1. cbn [SearchModel.process fst snd].
    pose proof (pop_W D D1 h s P) as PW. pose proof (wsum_expand (h, s) ltac:(cbn; eauto)) as WE. cbn [fst] in WE.
    destruct (complete h) eqn:Ch; cbn [negb].
    + exists (h, s), (S iter), D1. split; [auto|]. split; [auto|]. split; [|auto]. cbn [snd]. pose proof (reach_le _ _ R Ch) as L.
      destruct PR as (h1 & s1 & Q1 & R1 & (c & e & Ex & Cc & O)). destruct T as [T1 T2]. destruct (bool_dec bf true) as [EB|EB].
      * destruct (T2 EB Ch _ _ Q1) as [Ch1 L1]. destruct (ext_final _ _ _ (reach_ok _ _ R1) Ch1 Ex) as [<- ->]. unfold f in L1. rewrite (heur_complete _ (reach_ok _ _ R) Ch), (heur_complete _ (reach_ok _ _ R1) Ch1) in L1.
        assert (DE : dist h = dist h1) by (apply dist_ok in Ch; eauto; apply dist_ok in Ch1; eauto; congruence). unfold gval in L1. rewrite DE in L1. lia.
      * assert (EB' : bf = false) by (destruct bf; congruence). destruct (F EB') as [F1 F2]. specialize (T1 EB' F1 _ _ Q1). specialize (F2 _ _ _ (reach_ok _ _ R1) Ex Cc).
        unfold f in T1. rewrite EB', (heur_complete _ (reach_ok _ _ R) Ch) in T1. lia.
    + fold (better result h s).
      destruct (push_all_ok (rev (expand (h, s))) D1 IV1 (expand_reach (h, s) R)) as (D2 & E2 & IV2 & W2 & K2 & S2). rewrite E2.
      assert (G1 : good (better result h s)). { unfold better. destruct (_ <? _); [now right|]. destruct (_ && _); [now right|auto]. }
      assert (F2 : flag_ok D2). { apply (flag_keeps D); auto. eapply keeps_trans; [split; eauto|auto]. }
      assert (PR2 : promising D2).
      { apply (push_all_full (rev (expand (h, s))) D1 IV1 (expand_reach (h, s) R)); auto; [rewrite X1; lia|intro EB; apply (F EB)|].
        destruct PR as (h1 & s1 & Q1 & R1 & O1). apply (Permutation_in _ P) in Q1. destruct Q1 as [Q1|Q1]; [|left; exists h1, s1; auto].
        apply item_inj in Q1. destruct Q1 as [<- <-]. right. destruct O1 as (c & e & Ex & Cc & O). destruct (ext_first _ _ _ Ex) as [[<- ->]|(b & x & e' & Ib & Eb & ->)]; [congruence|].
        exists (b, (s + x)%Z). split; [apply in_rev; rewrite rev_involutive; unfold SearchModel.expand; apply in_map_iff; exists (b, x); auto|]. cbn [fst snd]. exists c, e'. repeat split; auto. lia. }
      destruct K2 as [K2a K2b]. apply (IH (S iter) (better result h s) D2); auto; [now apply better_incomplete|rewrite K2a, X1; lia|lia].
Qed.
End Search.
