(** Word-graph files: printing, loading, printing again. *)
From Coq Require Import Ascii String Arith ZArith NArith QArith List Bool Lia Sorted.
From Verif Require Import TextSpec TextModel VocabModel WgModel WgBase PmModel GfmtModel WgfSpec WgfModel WgfText.
Import ListNotations.
Open Scope nat_scope.
Fixpoint ok_seq (n : nat) (L : list farc) : Prop := match L with [] => True | a :: r => f_pred a < Nat.max n (S (f_succ a)) /\ ok_seq (Nat.max n (S (f_succ a))) r end.
Definition size_of (n : nat) (L : list farc) : nat := fold_left (fun k a => Nat.max k (S (f_succ a))) L n.
Lemma ok_seq_app : forall a b n, ok_seq n (a ++ b) <-> ok_seq n a /\ ok_seq (size_of n a) b.
Proof. induction a as [|x a IH]; intros b n; cbn [app ok_seq size_of fold_left]; [tauto|]. rewrite IH. unfold size_of. tauto. Qed.
Record Inv (g : fwg) : Prop := { i_len : length (w_pruned g) = length (w_arcs g); i_sort : StronglySorted lt (w_finals g); i_size : length (w_states g) = size_of 0 (w_arcs g); i_seq : ok_seq 0 (w_arcs g);
  i_st : forall s d, nth_error (w_states g) s = Some d -> toPred d = positions f_succ (w_arcs g) s /\ toSucc d = positions f_pred (w_arcs g) s;
  i_bound : forall a, In a (w_arcs g) -> f_pred a < length (w_states g) /\ f_succ a < length (w_states g) }.
Lemma positions_snoc : forall f l a s, positions f (l ++ [a]) s = positions f l s ++ (if f a =? s then [length l] else []).
Proof.
  intros f l a s. unfold positions. rewrite app_length. cbn [length]. rewrite Nat.add_1_r, seq_S, filter_app. f_equal.
  - apply filter_ext_in. intros i Hi. apply in_seq in Hi. rewrite nth_error_app1 by lia. reflexivity.
  - cbn [filter Nat.add]. rewrite nth_error_app2, Nat.sub_diag by lia. cbn [nth_error]. destruct (f a =? s); reflexivity.
Qed.
Lemma filter_none : forall A (p : A -> bool) l, (forall x, In x l -> p x = false) -> filter p l = [].
Proof. intros A p l. induction l as [|x l IH]; intros H; [reflexivity|]. cbn [filter]. rewrite (H x) by now left. apply IH. intros y Hy. apply H. now right. Qed.
Lemma size_mono : forall L n, n <= size_of n L.
Proof. induction L as [|a L IH]; intros n; [apply le_n|]. cbn [size_of fold_left]. pose proof (IH (Nat.max n (S (f_succ a)))). unfold size_of in *. lia. Qed.
Lemma size_snoc : forall L a n, size_of n (L ++ [a]) = Nat.max (size_of n L) (S (f_succ a)).
Proof. intros. unfold size_of. rewrite fold_left_app. reflexivity. Qed.
Lemma add_inv : forall g p s ws z cs g', Inv g -> w_addArc p s ws z cs g = Some g' -> Inv g' /\ w_arcs g' = w_arcs g ++ [mkfarc p s z ws cs] /\ w_pruned g' = w_pruned g ++ [false] /\ w_finals g' = w_finals g /\ w_init g' = w_init g /\ w_weights g' = w_weights g.
Proof.
  intros g p s ws z cs g' IV H. unfold w_addArc in H. set (st0 := w_states g ++ repeat st_empty (S s - length (w_states g))) in *. destruct (upd p (add_succ (length (w_arcs g))) st0) as [st1|] eqn:U1; [|discriminate].
  destruct (upd s (add_pred (length (w_arcs g))) st1) as [st2|] eqn:U2; [|discriminate]. injection H as <-. cbn. split; [|auto]. apply upd_some in U1, U2. destruct U1 as (A1 & A2 & A3). destruct U2 as (B1 & B2 & B3).
  assert (L0 : length st0 = Nat.max (length (w_states g)) (S s)) by (unfold st0; rewrite app_length, repeat_length; lia).
  destruct IV as [IL IS IZ IQ IT IB]. constructor; cbn [w_pruned w_arcs w_finals w_states].
  - rewrite !app_length. cbn. lia.
  - exact IS.
  - rewrite size_snoc. cbn [f_succ]. rewrite <- IZ. lia.
  - apply ok_seq_app. split; [exact IQ|]. cbn [ok_seq f_pred f_succ]. rewrite <- IZ. lia.
  - intros k d Hd. rewrite !positions_snoc. cbn [f_succ f_pred]. rewrite B3, A3 in Hd.
    assert (E0 : forall d0, nth_error st0 k = Some d0 -> toPred d0 = positions f_succ (w_arcs g) k /\ toSucc d0 = positions f_pred (w_arcs g) k).
    { intros d0 E. unfold st0 in E. destruct (Nat.lt_ge_cases k (length (w_states g))) as [L|L]; [rewrite nth_error_app1 in E by exact L; now apply IT|]. rewrite nth_error_app2 in E by exact L. apply nth_error_In, repeat_spec in E. subst d0. cbn.
      assert (EM : forall f, (forall a, In a (w_arcs g) -> f a < length (w_states g)) -> positions f (w_arcs g) k = []).
      { intros f Hf. unfold positions. apply filter_none. intros i Hi. destruct (nth_error (w_arcs g) i) as [a|] eqn:Ea; [|reflexivity]. apply nth_error_In, Hf in Ea. apply Nat.eqb_neq. lia. }
      split; symmetry; apply EM; intros a Ha; apply IB; exact Ha. }
    rewrite (Nat.eqb_sym p k), (Nat.eqb_sym s k). destruct (nth_error st0 k) as [d0|] eqn:E; [|destruct (k =? p), (k =? s); discriminate]. destruct (E0 d0 eq_refl) as [X Y].
    destruct (k =? s); destruct (k =? p); cbn in Hd; injection Hd as <-; cbn; rewrite X, Y, ?app_nil_r; auto.
  - intros a Ha. apply in_app_or in Ha. destruct Ha as [Ha|[<-|[]]]; [destruct (IB a Ha); lia|]. cbn. lia.
Qed.
Lemma add_ok : forall g p s ws z cs, p < Nat.max (length (w_states g)) (S s) -> exists g', w_addArc p s ws z cs g = Some g'.
Proof.
  intros g p s ws z cs H. unfold w_addArc. set (st0 := w_states g ++ repeat st_empty (S s - length (w_states g))). assert (L0 : length st0 = Nat.max (length (w_states g)) (S s)) by (unfold st0; rewrite app_length, repeat_length; lia).
  destruct (upd_ok _ p (add_succ (length (w_arcs g))) st0) as [st1 E1]; [lia|]. rewrite E1. apply upd_some in E1. destruct (upd_ok _ s (add_pred (length (w_arcs g))) st1) as [st2 E2]; [lia|]. rewrite E2. eauto.
Qed.
Lemma inv0 : forall fs z ws, StronglySorted lt fs -> Inv (mkfwg [] [] [] fs z ws).
Proof. intros fs z ws H. constructor; cbn; auto; [intros [|s] d; discriminate|tauto]. Qed.
Lemma add_list_ok : forall L g, Inv g -> ok_seq (length (w_states g)) L -> exists g', add_list L g = Some g' /\ Inv g' /\ w_arcs g' = w_arcs g ++ L /\ w_pruned g' = w_pruned g ++ repeat false (length L) /\ w_finals g' = w_finals g /\ w_init g' = w_init g /\ w_weights g' = w_weights g.
Proof.
  induction L as [|a L IH]; intros g IV H; cbn [add_list].
  - exists g. cbn. rewrite !app_nil_r. auto 10.
  - destruct H as [H1 H2]. unfold addA. destruct (add_ok g _ _ (f_words a) (f_score a) (f_comps a) H1) as [g1 E]. rewrite E. destruct (add_inv _ _ _ _ _ _ _ IV E) as (IV1 & A1 & A2 & A3 & A4 & A5).
    assert (S1 : length (w_states g1) = Nat.max (length (w_states g)) (S (f_succ a))). { rewrite (i_size _ IV1), A1, size_snoc. cbn [f_succ]. now rewrite (i_size _ IV). }
    rewrite <- S1 in H2. destruct (IH g1 IV1 H2) as (g' & E' & IV' & B1 & B2 & B3 & B4 & B5). exists g'. split; [exact E'|]. split; [exact IV'|]. rewrite B1, B2, B3, B4, B5, A1, A2, A3, A4, A5, <- !app_assoc. destruct a; cbn. auto 10.
Qed.
(** ** histories *)
Lemma positions_map : forall f r l s, (forall a, f (r a) = f a) -> positions f (map r l) s = positions f l s.
Proof. intros f r l s H. unfold positions. rewrite map_length. apply filter_ext. intros i. rewrite nth_error_map. destruct (nth_error l i); cbn; [now rewrite H|reflexivity]. Qed.
Lemma ok_seq_map : forall r L n, (forall a, f_pred (r a) = f_pred a /\ f_succ (r a) = f_succ a) -> (ok_seq n (map r L) <-> ok_seq n L) /\ size_of n (map r L) = size_of n L.
Proof.
  intros r L n H. revert n. induction L as [|a L IH]; intros n; [split; [tauto|reflexivity]|]. destruct (H a) as [Hp Hs]. cbn [map ok_seq size_of fold_left]. rewrite Hp, Hs. destruct (IH (Nat.max n (S (f_succ a)))) as [X Y]. split; [tauto|exact Y].
Qed.
Lemma rescore_ends : forall ws a, f_pred (rescore_arc ws a) = f_pred a /\ f_succ (rescore_arc ws a) = f_succ a.
Proof. intros ws a. unfold rescore_arc. destruct (_ =? _); auto. Qed.
Lemma step_inv : forall o g g', Inv g -> w_step g o = Some g' -> Inv g'.
Proof.
  intros [p s w z c|s|v|z|l] g g' IV H; cbn [w_step] in H.
  - eapply add_inv; eassumption.
  - injection H as <-. destruct IV. constructor; cbn; auto. now apply set_insert_sorted.
  - injection H as <-. destruct (Nat.eqb_spec (length v) (length (w_pruned g))) as [E|E]; [|exact IV]. destruct IV. constructor; cbn; auto. congruence.
  - injection H as <-. destruct IV. constructor; cbn; auto.
  - injection H as <-. destruct IV as [IL IS IZ IQ IT IB]. destruct (ok_seq_map (rescore_arc l) (w_arcs g) 0 (rescore_ends l)) as [X Y]. constructor; cbn [w_setCompWeights w_pruned w_arcs w_finals w_states]; auto.
    + now rewrite map_length. + now rewrite Y. + now apply X. + intros s d Hd. rewrite !positions_map by (intros; apply rescore_ends). auto.
    + intros a Ha. apply in_map_iff in Ha. destruct Ha as [b [<- Hb]]. destruct (rescore_ends l b) as [-> ->]. auto.
Qed.
Lemma run_inv : forall h g g', Inv g -> w_run h g = Some g' -> Inv g'.
Proof. induction h as [|o h IH]; intros g g' IV H; cbn [w_run] in H; [congruence|]. destruct (w_step g o) as [g1|] eqn:E; [|discriminate]. eapply IH; [eapply step_inv; eassumption|exact H]. Qed.
(** ** printing *)
Definition hasin (L : list farc) (s : nat) : bool := existsb (fun a => f_succ a =? s) L.
Lemma unflagged_In : forall l v a, length v = length l -> (In a (unflagged l v) <-> exists i, nth_error l i = Some a /\ nth_error v i = Some false).
Proof.
  induction l as [|x l IH]; intros [|b v] a H; try discriminate; cbn [unflagged].
  - split; [intros []|intros ([|i] & E & _); discriminate].
  - injection H as H. assert (X : In a (unflagged l v) <-> exists i, nth_error (x :: l) (S i) = Some a /\ nth_error (b :: v) (S i) = Some false) by (cbn [nth_error]; now apply IH). destruct b.
    + rewrite X. split; [intros (i & A & B); eauto|intros ([|i] & A & B); [discriminate|eauto]].
    + cbn [In]. rewrite X. split; [intros [->|(i & A & B)]; [exists 0; auto|eauto]|intros ([|i] & A & B); [left; cbn in A; congruence|right; eauto]].
Qed.
Lemma fsp : forall g s, Inv g -> finalStatePruned g s = Some (negb (hasin (unflagged (w_arcs g) (w_pruned g)) s)).
Proof.
  intros g s IV. unfold finalStatePruned. destruct (nth_error (w_states g) s) as [d|] eqn:E.
  - destruct (i_st _ IV s d E) as [-> _]. rewrite not_pruned_spec by (intros i Hi; unfold positions in Hi; apply filter_In in Hi; destruct Hi as [Hi _]; apply in_seq in Hi; rewrite (i_len _ IV); lia). f_equal.
    destruct (filter _ (positions f_succ (w_arcs g) s)) as [|i r] eqn:F.
    + symmetry. apply negb_true_iff. apply not_true_iff_false. intros H. apply existsb_exists in H. destruct H as (a & Ha & Es). apply unflagged_In in Ha; [|apply IV]. destruct Ha as (i & A & B).
      assert (Hi : In i (filter (fun i => negb (nth i (w_pruned g) true)) (positions f_succ (w_arcs g) s))).
      { apply filter_In. split; [apply filter_In; split; [apply in_seq; assert (i < length (w_arcs g)) by (apply nth_error_Some; congruence); lia|now rewrite A]|]. rewrite (nth_error_nth _ _ _ B). reflexivity. }
      rewrite F in Hi. destruct Hi.
    + symmetry. apply negb_false_iff. assert (Hi : In i (i :: r)) by now left. rewrite <- F in Hi. apply filter_In in Hi. destruct Hi as [Hi P]. apply filter_In in Hi. destruct Hi as [Hr Hs]. destruct (nth_error (w_arcs g) i) as [a|] eqn:Ea; [|discriminate].
      apply existsb_exists. exists a. split; [|exact Hs]. apply unflagged_In; [apply IV|]. exists i. split; [exact Ea|]. apply in_seq in Hr. destruct (nth_error (w_pruned g) i) as [b|] eqn:Eb; [|apply nth_error_None in Eb; rewrite (i_len _ IV) in Eb; lia]. rewrite (nth_error_nth _ _ _ Eb) in P. destruct b; [discriminate|reflexivity].
  - f_equal. symmetry. apply negb_true_iff. apply not_true_iff_false. intros H. apply existsb_exists in H. destruct H as (a & Ha & Es). apply unflagged_In in Ha; [|apply IV]. destruct Ha as (i & A & _). apply nth_error_In in A. apply (i_bound _ IV) in A. apply nth_error_None in E. apply Nat.eqb_eq in Es. lia.
Qed.
Lemma printed_finals_ok : forall g l, Inv g -> printed_finals g l = Some (filter (hasin (unflagged (w_arcs g) (w_pruned g))) l).
Proof. intros g l IV. induction l as [|s l IH]; [reflexivity|]. cbn [printed_finals filter]. rewrite fsp by exact IV. rewrite IH. destruct (hasin _ s); reflexivity. Qed.
Lemma arcs_text_ok : forall l v, length v = length l -> arcs_text l v = Some (map arc_text (unflagged l v)).
Proof. induction l as [|a l IH]; intros [|b v] H; try discriminate; [reflexivity|]. injection H as H. cbn [arcs_text unflagged]. rewrite IH by exact H. destruct b; reflexivity. Qed.
Theorem print_ok : forall g, Inv g -> w_print g = Some (file_text (w_weights g) (filter (hasin (unflagged (w_arcs g) (w_pruned g))) (w_finals g)) (unflagged (w_arcs g) (w_pruned g))).
Proof. intros g IV. unfold w_print. rewrite printed_finals_ok, arcs_text_ok by (auto; apply IV). unfold file_text. destruct (w_weights g); reflexivity. Qed.
(** ** loading *)
Lemma insert_last : forall l x, (forall y, In y l -> y < x) -> set_insert x l = l ++ [x].
Proof. induction l as [|y l IH]; intros x H; [reflexivity|]. cbn [set_insert]. assert (y < x) by (apply H; now left). destruct (Nat.ltb_spec x y); [lia|]. destruct (Nat.eqb_spec x y); [lia|]. cbn [app]. f_equal. apply IH. intros z Hz. apply H. now right. Qed.
Lemma reinsert : forall l acc, StronglySorted lt (acc ++ l) -> fold_left (fun a s => set_insert s a) l acc = acc ++ l.
Proof.
  induction l as [|x l IH]; intros acc H; [now rewrite app_nil_r|]. cbn [fold_left]. rewrite insert_last.
  - rewrite IH; [now rewrite <- app_assoc|]. rewrite <- app_assoc. exact H.
  - clear IH. induction acc as [|z acc IHa]; intros y Hy; [destruct Hy|]. cbn [app] in H. apply StronglySorted_inv in H. destruct H as [H F]. destruct Hy as [->|Hy]; [|now apply IHa]. rewrite Forall_forall in F. apply F. apply in_or_app. right. now left.
Qed.
Lemma sorted_filter : forall p l, StronglySorted lt l -> StronglySorted lt (filter p l).
Proof. intros p l H. induction H as [|x l H IH F]; [constructor|]. cbn [filter]. destruct (p x); [|exact IH]. constructor; [exact IH|]. rewrite Forall_forall in *. intros y Hy. apply filter_In in Hy. apply F, Hy. Qed.
Lemma forward_seq : forall L n, Forall forward L -> ok_seq n L.
Proof. induction L as [|a L IH]; intros n F; [exact Logic.I|]. inversion F as [|? ? Fa F']; subst. unfold forward in Fa. cbn [ok_seq]. split; [lia|auto]. Qed.
Lemma unflagged_all : forall l v, length v = length l -> Forall (fun b => b = false) v -> unflagged l v = l.
Proof. induction l as [|a l IH]; intros [|b v] H F; try discriminate; [reflexivity|]. injection H as H. inversion F; subst. cbn [unflagged]. now rewrite IH. Qed.
Lemma unflagged_repeat : forall l, unflagged l (repeat false (length l)) = l.
Proof. induction l as [|a l IH]; [reflexivity|]. cbn. now rewrite IH. Qed.
Lemma rda_ends : forall a, f_pred (rda a) = f_pred a /\ f_succ (rda a) = f_succ a. Proof. auto. Qed.
Lemma hasin_rda : forall L s, hasin (map rda L) s = hasin L s.
Proof. intros L s. induction L as [|a L IH]; [reflexivity|]. unfold hasin in *. cbn [map existsb]. now rewrite IH. Qed.
Lemma rda_same : forall a, same_arc a (rda a).
Proof. intros a. repeat (split; [reflexivity|]). split; [apply rd_printed|]. cbn. induction (f_comps a); constructor; auto. apply rd_printed. Qed.
Lemma rda_text : forall a, arc_text (rda a) = arc_text a.
Proof.
  intros a. unfold arc_text. cbn [f_pred f_succ f_score f_comps f_words rda]. rewrite rd_text. do 6 f_equal. f_equal. destruct (f_comps a) as [|c cs]; [reflexivity|]. cbn [map].
  assert (X : map (fun c0 : Q => fmt_g c0 ++ [SP]) (map rd cs) = map (fun c0 : Q => fmt_g c0 ++ [SP]) cs) by (rewrite map_map; apply map_ext; intros; now rewrite rd_text). rewrite X, rd_text. reflexivity.
Qed.
Lemma rdw_text : forall ws, weights_text (map rdw ws) = weights_text ws.
Proof. induction ws as [|w ws IH]; [reflexivity|]. cbn [map weights_text]. destruct ws as [|w' ws]; cbn [map]; cbn [rdw fst snd]; rewrite rd_text; [reflexivity|]. cbn [map] in IH. rewrite <- IH. reflexivity. Qed.
Lemma file_text_rd : forall ws fs L, file_text (map rdw ws) fs (map rda L) = file_text ws fs L.
Proof.
  intros ws fs L. unfold file_text. f_equal. f_equal. f_equal.
  - destruct ws as [|w ws]; [reflexivity|]. pose proof (rdw_text (w :: ws)) as X. cbn [map] in *. now rewrite X.
  - f_equal. rewrite map_map. apply map_ext. apply rda_text.
Qed.
Definition writable (g : fwg) : Prop := Forall (fun w => plain (fst w)) (w_weights g) /\ Forall small (w_finals g) /\ Forall plain_arc (w_arcs g).
Theorem print_load : forall h g, w_run h w_clear = Some g -> writable g -> Forall forward (unflagged (w_arcs g) (w_pruned g)) \/ Forall (fun b => b = false) (w_pruned g) ->
  exists text g', w_print g = Some text /\ w_load text = Some g' /\
    Forall2 same_arc (unflagged (w_arcs g) (w_pruned g)) (w_arcs g') /\ Forall (fun b => b = false) (w_pruned g') /\
    (forall s, In s (w_finals g') <-> In s (w_finals g) /\ exists a, In a (unflagged (w_arcs g) (w_pruned g)) /\ f_succ a = s) /\
    Forall2 same_weight (w_weights g) (w_weights g') /\
    (forall s d, nth_error (w_states g') s = Some d -> toPred d = positions f_succ (w_arcs g') s /\ toSucc d = positions f_pred (w_arcs g') s) /\
    (forall a, In a (w_arcs g') -> f_pred a < length (w_states g') /\ f_succ a < length (w_states g')) /\
    w_print g' = Some text.
Proof.
  intros h g HR (WW & WF & WA) SH. assert (IV : Inv g) by (eapply run_inv; [|exact HR]; apply inv0; constructor). set (U := unflagged (w_arcs g) (w_pruned g)) in *. set (fs := filter (hasin U) (w_finals g)).
  assert (PU : Forall plain_arc U). { apply Forall_forall. intros a Ha. apply unflagged_In in Ha; [|apply IV]. destruct Ha as (i & A & _). apply nth_error_In in A. rewrite Forall_forall in WA. auto. }
  assert (PF : Forall small fs). { apply Forall_forall. intros s Hs. apply filter_In in Hs. rewrite Forall_forall in WF. apply WF, Hs. }
  assert (SF : StronglySorted lt fs) by (apply sorted_filter, IV).
  assert (SQ : ok_seq 0 (map rda U)). { apply ok_seq_map; [apply rda_ends|]. destruct SH as [F|F]; [now apply forward_seq|]. unfold U. rewrite unflagged_all by (auto; apply IV). apply IV. }
  exists (file_text (w_weights g) fs U). pose proof (load_text (w_weights g) fs U WW PF PU) as LT. rewrite (reinsert fs []) in LT by exact SF. cbn [app] in LT.
  destruct (add_list_ok (map rda U) (mkfwg [] [] [] fs 0 (map rdw (w_weights g))) (inv0 _ _ _ SF) SQ) as (g' & E & IV' & B1 & B2 & B3 & B4 & B5). cbn [w_arcs w_pruned w_finals w_weights app] in B1, B2, B3, B5.
  exists g'. split; [apply print_ok, IV|]. split; [rewrite LT; exact E|]. split; [rewrite B1; clear; induction U; constructor; auto using rda_same|]. split; [rewrite B2; apply Forall_forall; intros b Hb; eapply repeat_spec; exact Hb|]. split.
  - intros s. rewrite B3. unfold fs. rewrite filter_In. unfold hasin. rewrite existsb_exists. split; (intros [A (a & X & Y)]; split; [exact A|]; exists a; split; [exact X|now apply Nat.eqb_eq]).
  - split; [rewrite B5; clear; induction (w_weights g) as [|w l IH]; constructor; auto; split; [reflexivity|apply rd_printed]|]. split; [intros s d Hd; apply IV', Hd|]. split; [intros a Ha; apply IV'; exact Ha|].
    rewrite print_ok by exact IV'. rewrite B1, B2, B3, B5, unflagged_repeat. f_equal. assert (F2 : filter (hasin (map rda U)) fs = fs). { rewrite (filter_ext _ (hasin U)) by apply hasin_rda. clear. unfold fs. induction (w_finals g) as [|s l IH]; [reflexivity|]. cbn [filter]. destruct (hasin U s) eqn:E; [cbn [filter]; rewrite E; now f_equal|exact IH]. }
    rewrite F2. apply file_text_rd.
Qed.
(** ** weights *)
Open Scope Q_scope.
Lemma acc_weighted : forall ws cs acc, acc_score acc ws cs == acc + weighted (map snd ws) cs.
Proof.
  induction ws as [|w ws IH]; intros [|c cs] acc; cbn [acc_score map]; unfold weighted; cbn; try ring. rewrite IH. unfold weighted. cbn. ring.
Qed.
Theorem rescored : forall ws g a', In a' (w_arcs (w_setCompWeights ws g)) -> exists a, In a (w_arcs g) /\ f_pred a' = f_pred a /\ f_succ a' = f_succ a /\ f_words a' = f_words a /\ f_comps a' = f_comps a /\
  (length (f_comps a) = length ws -> f_score a' == weighted (map snd ws) (f_comps a)) /\ (length (f_comps a) <> length ws -> f_score a' = f_score a).
Proof.
  intros ws g a' H. cbn [w_setCompWeights w_arcs] in H. apply in_map_iff in H. destruct H as [a [<- Ha]]. exists a. unfold rescore_arc. destruct (Nat.eqb_spec (length (f_comps a)) (length ws)) as [E|E]; cbn.
  - repeat (split; auto). + intros _. rewrite acc_weighted. ring. + intros N. contradiction.
  - repeat (split; auto). intros N. contradiction.
Qed.
