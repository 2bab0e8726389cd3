(** C96: the n-best corrections of a word graph for a prefix typed by the user. *)
From Coq Require Import Ascii String Arith ZArith List Bool Lia Sorted Permutation.
From Verif Require Import EditDistSpec EditDistModel TextSpec TextModel EcSpec EcModel EcProofs EcwSpec EcwModel EcwProofs EcwGraph EcwInv EcwRun PropertiesEcw EcnSpec EcnModel EcnProofs.
Import ListNotations.
Open Scope Z_scope.
Notation s2s := list_ascii_of_string (only parsing).

(** the distance the code charges for reading [ws] when [tw] was typed: the cheapest edit distance; for the empty sentence the
    blank typed after the last word ([b]) is charged like a character (see C94_initial_state_blank_refuted) *)
Definition charged (hc ic sc dc : Z) (b : bool) (tw ws : list word) (d : Z) : Prop :=
  exists e, wcheapest hc ic sc dc (negb b) ws tw e /\ d = e + (if b && is_nil ws then ic else 0).

(** the score of the best completion from [s] whose first word is compatible with the rejected words *)
Definition completion (G : list warc) (rest : nat -> Z) (rej : list (word * word)) (s : nat) (z : Z) : Prop :=
  match rej with
  | [] => z = rest s
  | _ => (exists arc w ws, In arc G /\ a_pred arc = s /\ a_words arc = w :: ws /\ compatible rej w /\ z = a_score arc + rest (a_succ arc)) /\
         forall arc w ws, In arc G -> a_pred arc = s -> a_words arc = w :: ws -> compatible rej w -> a_score arc + rest (a_succ arc) <= z
  end.

Section S.
Variables (hc ic sc dc ecmW wgW : Z) (G : list warc) (s0 : Z) (rest : nat -> Z) (suffix : nat -> list nat -> list word).
Variables (rej : list (word * word)) (p0 : list word) (l : word) (b : bool).
Notation gp := (gpath (map tup G) s0).
Notation chg := (charged hc ic sc dc b (p0 ++ [l])).

(** the arcs whose use would contradict the rejected words after state [s] *)
Definition banned (s : nat) (excl : list nat) : Prop :=
  forall a, In a excl <-> rej <> [] /\ exists arc w ws, nth_error G a = Some arc /\ a_pred arc = s /\ a_words arc = w :: ws /\ ~ compatible rej w.
(** correction for state [s]: a best path to the state, corrected to start with the typed words, then the best completion *)
Definition state_correction (s : nat) (z : Z) (r : list word) : Prop :=
  exists ws c d t rr excl, gp s ws c /\ chg ws d /\
    (forall ws' c' d', gp s ws' c' -> chg ws' d' -> - (ecmW * d') + wgW * c' <= - (ecmW * d) + wgW * c) /\
    completion G rest rej s rr /\ z = - (ecmW * d) + wgW * c + wgW * rr /\
    banned s excl /\ r = p0 ++ (l ++ t) :: suffix s excl /\ (b = true -> t = []).
(** correction inside arc [a], after its words up to the [w]-th *)
Definition substate_correction (a w : nat) (z : Z) (r : list word) : Prop :=
  exists arc ws c d t, nth_error G a = Some arc /\ (S w < length (a_words arc))%nat /\ compatible rej (nth (S w) (a_words arc) []) /\
    gp (a_pred arc) ws c /\ chg (ws ++ firstn (S w) (a_words arc)) d /\
    (forall ws' c' d', gp (a_pred arc) ws' c' -> chg (ws' ++ firstn (S w) (a_words arc)) d' -> - (ecmW * d') + wgW * c' <= - (ecmW * d) + wgW * c) /\
    z = - (ecmW * d) + wgW * c + wgW * rest (a_pred arc) /\
    r = p0 ++ (l ++ t) :: skipn (S w) (a_words arc) ++ suffix (a_succ arc) [] /\ (b = true -> t = []).

Section P.
Variable Sc : nat -> Z.
Hypothesis DC : 0 < dc.
Hypothesis IC : 0 <= ic.
Hypothesis EW : 0 < ecmW.
Hypothesis WN : forall arc w, In arc G -> In w (a_words arc) -> clean w.
Hypothesis AN : forall arc, In arc G -> a_words arc <> [].
Hypothesis TP : topo (map tup G).
Hypothesis SC : forall s ws c, gp s ws c -> wgW * c = wgW * Sc s.
Hypothesis CL : clean l.
Hypothesis CP : forall w, In w p0 -> clean w.
Hypothesis SU : forall s excl w, In w (suffix s excl) -> clean w.
Variable st : wgp.
Notation p := (typed p0 l b).
Hypothesis F : Full hc ic sc dc ecmW wgW G s0 Sc p (length p0 + 2) st.
Notation D := (D hc ic sc dc).

Lemma D_chg : forall ws, chg ws (D p ws (length p)).
Proof.
  intros ws. destruct (typed_facts p0 l b CL CP) as (WF & PC & PW & _ & LL).
  assert (TN : p <> []) by (unfold typed; destruct p0; discriminate).
  assert (LN : last p [] <> []) by (rewrite LL; destruct b; [destruct l; discriminate|apply CL]).
  assert (OP : open_of p = negb b) by (unfold open_of; now rewrite PC).
  pose proof (Dc_cheapest hc ic sc dc DC p ws (length p) TN LN (le_n _)) as H.
  rewrite PW, Nat.eqb_refl, OP, andb_true_r in H. rewrite typed_len in H at 1. rewrite firstn_all2 in H by (rewrite app_length; cbn; lia).
  exists (Dc hc ic sc dc p ws (length p)). split; [exact H|].
  destruct (b && is_nil ws)%bool eqn:E.
  - apply andb_true_iff in E. destruct E as [EB EN]. destruct ws; [|discriminate]. apply D_first_row_blank; auto. now rewrite PC.
  - rewrite D_clean; auto; [lia|]. apply andb_false_iff in E. rewrite OP. destruct E as [->|E]; [auto|]. left. intros ->. discriminate.
Qed.
Lemma chg_fun : forall ws d d', chg ws d -> chg ws d' -> d = d'.
Proof. intros ws d d' (e & H & ->) (e' & H' & ->). f_equal. eapply wcheapest_fun; eauto. Qed.

Lemma WNE : forall s ws c, gp s ws c -> forall w, In w ws -> w <> [].
Proof.
  intros s ws c H. induction H as [|s t ws us c d H IH Hi]; intros w Hw; [contradiction|]. apply in_app_or in Hw. destruct Hw as [Hw|Hw]; [eauto|].
  apply in_map_iff in Hi. destruct Hi as (arc & T & Hi). inversion T; subst. apply (WN arc w Hi Hw).
Qed.
(** correcting a sentence *)
Lemma combine_ok : forall u suf, (forall w, In w u -> w <> []) -> (forall w, In w suf -> clean w) ->
  exists c t, combine_pref hc ic sc dc u p = Some c /\ strip_last (c ++ suf) = p0 ++ (l ++ t) :: suf /\ (b = true -> t = []).
Proof.
  intros u suf UN CS. unfold combine_pref. destruct u as [|w u].
  - destruct (typed_facts p0 l b CL CP) as (_ & PC & PW & _ & LL). exists (p0 ++ [l]). 
    assert (SP1 : strip_last p = p0 ++ [l]).
    { unfold typed. rewrite strip_last_snoc. do 2 f_equal. destruct b; [|now apply strip_clean]. unfold removeLastBlank, lastCharIsBlank. rewrite app_length. cbn [length].
      replace (0 <? length l + 1)%nat with true by (symmetry; apply Nat.ltb_lt; lia). rewrite Nat.add_sub, app_nth2, Nat.sub_diag by lia. cbn. rewrite firstn_app, firstn_all, Nat.sub_diag. cbn. apply app_nil_r. }
    destruct (strip_last_corr p0 l [] suf CL CS) as (t & E & H). exists t. rewrite SP1. split; [reflexivity|]. split; [|auto]. rewrite <- E, app_nil_r, <- app_assoc. reflexivity.
  - destruct (typed_correct hc ic sc dc DC false (w :: u) p0 l b CL CP UN) as (d & t & x' & r & E & _ & K & TB & _). rewrite (K eq_refl) in E. rewrite E.
    destruct (strip_last_corr p0 l t suf CL CS) as (t' & E' & H). exists (p0 ++ [l ++ t]), t'. split; [reflexivity|]. split; [rewrite <- E', <- app_assoc; reflexivity|auto].
Qed.

Lemma gp_fuel : forall s pos, s = 0%nat \/ into G (length G) s -> (pos < length p0 + 2)%nat ->
  exists ws c, bestUncorr G st (length G) s pos = Some ws /\ gp s ws c /\ D p ws pos = nth pos (esiS st s) 0.
Proof.
  intros s pos IN Hp. destruct (bestUncorr_ok hc ic sc dc ecmW wgW G s0 Sc TP p _ st F (length G) s pos (length G)) as (ws & E & [c GC] & DV); auto.
  - intros b0 arc X _. apply nth_error_Some. congruence.
  - exists ws, c. auto.
Qed.

Lemma satisf_ok : forall arc w ws, a_words arc = w :: ws -> (satisf rej arc = true <-> compatible rej w).
Proof. intros arc w ws E. unfold satisf. rewrite E. apply wordSatisfies_ok. Qed.

Lemma bestRest_ok : forall s, match bestRestSucc G rest rej s with
  | None => forall arc w ws, In arc G -> a_pred arc = s -> a_words arc = w :: ws -> ~ compatible rej w
  | Some z => (exists arc w ws, In arc G /\ a_pred arc = s /\ a_words arc = w :: ws /\ compatible rej w /\ z = a_score arc + rest (a_succ arc)) /\
         forall arc w ws, In arc G -> a_pred arc = s -> a_words arc = w :: ws -> compatible rej w -> a_score arc + rest (a_succ arc) <= z
  end.
Proof.
  intros s. unfold bestRestSucc.
  assert (K : forall arcs done z0, (forall a, In a arcs -> In a G /\ a_pred a = s) ->
    (match z0 with None => forall arc w ws, In arc done -> a_words arc = w :: ws -> ~ compatible rej w
     | Some z => (exists arc w ws, In arc G /\ a_pred arc = s /\ a_words arc = w :: ws /\ compatible rej w /\ z = a_score arc + rest (a_succ arc)) /\
                 forall arc w ws, In arc done -> a_words arc = w :: ws -> compatible rej w -> a_score arc + rest (a_succ arc) <= z end) ->
    match fold_left (fun b a => if satisf rej a then let z := a_score a + rest (a_succ a) in if ltS b z then Some z else b else b) arcs z0 with
     | None => forall arc w ws, In arc (done ++ arcs) -> a_words arc = w :: ws -> ~ compatible rej w
     | Some z => (exists arc w ws, In arc G /\ a_pred arc = s /\ a_words arc = w :: ws /\ compatible rej w /\ z = a_score arc + rest (a_succ arc)) /\
                 forall arc w ws, In arc (done ++ arcs) -> a_words arc = w :: ws -> compatible rej w -> a_score arc + rest (a_succ arc) <= z end).
  { intros arcs. induction arcs as [|a arcs IH]; intros done z0 HG H; [rewrite app_nil_r; exact H|].
    cbn [fold_left]. replace (done ++ a :: arcs) with ((done ++ [a]) ++ arcs) by (rewrite <- app_assoc; reflexivity). apply IH; [intros; apply HG; right; auto|]. clear IH.
    destruct (HG a (or_introl eq_refl)) as [AG AP]. destruct (a_words a) as [|w ws] eqn:EW1; [exfalso; eapply AN; eauto|].
    pose proof (satisf_ok a w ws EW1) as SO. destruct (satisf rej a).
    - assert (CO : compatible rej w) by now apply SO. cbv zeta. destruct z0 as [z|]; cbn [ltS].
      + destruct H as [H1 H2]. destruct (Z.ltb_spec z (a_score a + rest (a_succ a))).
        * split; [exists a, w, ws; auto|]. intros arc w' ws' Hi E C. apply in_app_or in Hi. destruct Hi as [Hi|[<-|[]]]; [|lia]. specialize (H2 _ _ _ Hi E C). lia.
        * split; [auto|]. intros arc w' ws' Hi E C. apply in_app_or in Hi. destruct Hi as [Hi|[<-|[]]]; [eauto|lia].
      + split; [exists a, w, ws; auto|]. intros arc w' ws' Hi E C. apply in_app_or in Hi. destruct Hi as [Hi|[<-|[]]]; [|lia]. exfalso. eapply H; eauto.
    - assert (NC : ~ compatible rej w) by (intro C; apply SO in C; discriminate). destruct z0 as [z|].
      + destruct H as [H1 H2]. split; [auto|]. intros arc w' ws' Hi E C. apply in_app_or in Hi. destruct Hi as [Hi|[<-|[]]]; [eauto|]. exfalso. apply NC. congruence.
      + intros arc w' ws' Hi E C. apply in_app_or in Hi. destruct Hi as [Hi|[<-|[]]]; [eapply H; eauto|]. apply NC. congruence. }
  specialize (K (succ_arcs G s) [] None). cbn [app] in K.
  assert (SA : forall a, In a (succ_arcs G s) <-> In a G /\ a_pred a = s) by (intro a; unfold succ_arcs; rewrite filter_In, Nat.eqb_eq; tauto).
  specialize (K ltac:(intros a Ha; now apply SA) ltac:(intros arc w ws [])).
  destruct (fold_left _ _ _) as [z|].
  - destruct K as [K1 K2]. split; [exact K1|]. intros arc w ws Hi E. apply K2. apply SA. auto.
  - intros arc w ws Hi E. apply K. apply SA. auto.
Qed.
Lemma state_rest_ok : forall s, match state_rest G rest rej s with Some z => completion G rest rej s z | None => forall z, ~ completion G rest rej s z end.
Proof.
  intros s. unfold state_rest, completion. destruct rej as [|x r] eqn:E; [reflexivity|]. rewrite <- E. pose proof (bestRest_ok s) as B. destruct (bestRestSucc G rest rej s) as [z|]; [exact B|].
  intros z [(arc & w & ws & H1 & H2 & H3 & H4 & _) _]. eapply B; eauto.
Qed.

Lemma excluded_ok : forall s arcs k a, In a (excluded rej s k arcs) <-> (k <= a)%nat /\ exists arc, nth_error arcs (a - k) = Some arc /\ a_pred arc = s /\ satisf rej arc = false.
Proof.
  intros s arcs. induction arcs as [|arc arcs IH]; intros k a; cbn [excluded].
  - split; [intros []|]. intros (_ & arc & E & _). destruct (a - k)%nat; discriminate.
  - rewrite in_app_iff, IH. split.
    + intros [H|(H & arc' & E & R)].
      * destruct (Nat.eqb_spec (a_pred arc) s); [|contradiction]. destruct (satisf rej arc) eqn:ES; cbn in H; [contradiction|]. destruct H as [<-|[]].
        split; [lia|]. exists arc. rewrite Nat.sub_diag. auto.
      * split; [lia|]. exists arc'. replace (a - k)%nat with (S (a - S k)) by lia. auto.
    + intros (H & arc' & E & R). destruct (Nat.eq_dec a k) as [->|NE].
      * left. rewrite Nat.sub_diag in E. inversion E; subst arc'. destruct R as [-> ->]. rewrite Nat.eqb_refl. left. reflexivity.
      * right. split; [lia|]. exists arc'. replace (a - k)%nat with (S (a - S k)) in E by lia. auto.
Qed.
Lemma banned_ok : forall s, banned s (match rej with [] => [] | _ => excluded rej s 0 G end).
Proof.
  intros s a. destruct rej as [|x r] eqn:E; [split; [intros []|intros [H _]; congruence]|]. rewrite <- E. rewrite excluded_ok, Nat.sub_0_r. split.
  - intros (_ & arc & N1 & R1 & R2). split; [congruence|]. pose proof (AN arc (nth_error_In _ _ N1)) as NE. destruct (a_words arc) as [|w ws] eqn:EW1; [congruence|]. exists arc, w, ws.
    split; [auto|]. split; [auto|]. split; [auto|]. intro C. apply (satisf_ok arc w ws EW1) in C. congruence.
  - intros (_ & arc & w & ws & N1 & R1 & EW1 & NC). split; [lia|]. exists arc. split; [auto|]. split; [auto|]. destruct (satisf rej arc) eqn:ES; [|reflexivity]. exfalso. apply NC. now apply (satisf_ok arc w ws EW1).
Qed.

(** one candidate state *)
Lemma last_nth' : forall A (x : list A) d n, length x = S n -> last x d = nth n x d.
Proof.
  intros A x d n L. destruct x as [|a x]; [discriminate|]. assert (NE : a :: x <> []) by congruence. rewrite (app_removelast_last d NE) at 2.
  assert (RL : length (removelast (a :: x)) = n) by (rewrite removelast_firstn1, firstn_length; simpl in *; lia). rewrite app_nth2 by lia. rewrite RL, Nat.sub_diag. reflexivity.
Qed.
Lemma best_of : forall s, s = 0%nat \/ into G (length G) s -> exists ws c, bestUncorr G st (length G) s (length p) = Some ws /\ gp s ws c /\
  last (bestS st s) None = Some (- (ecmW * D p ws (length p)) + wgW * c) /\
  forall ws' c' d', gp s ws' c' -> chg ws' d' -> - (ecmW * d') + wgW * c' <= - (ecmW * D p ws (length p)) + wgW * c.
Proof.
  intros s IN. assert (LT : (length p < length p0 + 2)%nat) by (rewrite typed_len; lia).
  destruct (gp_fuel s (length p) IN LT) as (ws & c & E & GC & DV). exists ws, c. split; [exact E|]. split; [exact GC|].
  destruct (F_len _ _ _ _ _ _ _ _ _ _ _ _ F s IN) as [(_ & LB & _) _]. destruct (F_val _ _ _ _ _ _ _ _ _ _ _ _ F s (length p) IN LT) as [[_ L] BC]. split.
  - rewrite (last_nth' _ _ _ (length p)) by (rewrite typed_len; lia). unfold bcol in BC. rewrite BC, DV, (SC _ _ _ GC). f_equal. lia.
  - intros ws' c' d' G' C'. rewrite (chg_fun _ _ _ C' (D_chg ws')), (SC _ _ _ GC), (SC _ _ _ G'), DV. specialize (L ws' ltac:(exists c'; auto)). cbv beta in L. nia.
Qed.
Lemma state_ok : forall s, s = 0%nat \/ into G (length G) s ->
  match state_cand wgW G rest st rej s with
  | [] => forall z, ~ completion G rest rej s z
  | [(z, s')] => s' = s /\ exists r, obtainCorrForHypState hc ic sc dc G suffix st p rej s = Some r /\ state_correction s z r
  | _ => False
  end.
Proof.
  intros s IN. unfold state_cand. destruct (best_of s IN) as (ws & c & E & GC & LB & OPT). rewrite LB.
  pose proof (state_rest_ok s) as SR. destruct (state_rest G rest rej s) as [rr|]; [|exact SR]. split; [reflexivity|].
  unfold obtainCorrForHypState. rewrite E. set (ex := match rej with [] => [] | _ => excluded rej s 0 G end).
  destruct (combine_ok ws (suffix s ex)) as (cc & t & C1 & C2 & C3); [intros; eapply WNE; eauto|apply SU|]. rewrite C1, C2.
  eexists. split; [reflexivity|]. exists ws, c, (D p ws (length p)), t, rr, ex. split; [auto|]. split; [apply D_chg|]. split; [auto|]. split; [auto|]. split; [reflexivity|].
  split; [apply banned_ok|]. auto.
Qed.

(** one candidate inside an arc *)
Lemma arc_ok_firstn : forall K Q ws u prev es m, arc_ok hc ic sc dc p K Q u prev ws es -> arc_ok hc ic sc dc p K Q u prev (firstn m ws) (firstn m es).
Proof. intros K Q ws. induction ws as [|w ws IH]; intros u prev [|e es] [|m] A; cbn in A |- *; try tauto. destruct A. split; auto. Qed.
Lemma back_firstn : forall es m k pos, (m <= k)%nat -> back_words es m pos = back_words (firstn k es) m pos.
Proof.
  intros es m. induction m as [|m IH]; intros k pos H; [reflexivity|]. cbn [back_words]. rewrite nth_error_firstn_lt by lia.
  destruct (nth_error es m); [|reflexivity]. destruct (lastInsPref _ _); [|reflexivity]. apply IH. lia.
Qed.
Lemma lastrow_firstn : forall prev es w, (w < length es)%nat -> lastrow prev (firstn (S w) es) = scrVec (nth w es (mkesi [] [])).
Proof.
  intros prev es w H. assert (FS : firstn (S w) es = firstn w es ++ [nth w es (mkesi [] [])]).
  { clear prev. revert es H. induction w as [|w IH]; intros [|e es] H; simpl in H; try lia; [reflexivity|]. cbn [firstn nth app]. f_equal. apply IH. lia. }
  rewrite FS. unfold lastrow. destruct (firstn w es) as [|e l1]; [reflexivity|]. cbn [app]. rewrite app_comm_cons, last_last. reflexivity.
Qed.
Lemma sub_ok : forall a arc w, nth_error G a = Some arc -> (S w < length (a_words arc))%nat ->
  match sub_cand ecmW wgW rest st rej a arc w with
  | [] => ~ compatible rej (nth (S w) (a_words arc) [])
  | [(z, aw)] => aw = (a, w) /\ exists r, obtainCorrForHypSubState hc ic sc dc G suffix st p (a, w) = Some r /\ substate_correction a w z r
  | _ => False
  end.
Proof.
  intros a arc w EA HW. unfold sub_cand.
  assert (PI : a_pred arc = 0%nat \/ into G (length G) (a_pred arc)).
  { destruct (pred_into G TP a arc EA) as [H|(b' & arc' & H & R)]; [auto|]. right. exists b', arc'. split; [|auto]. apply nth_error_Some. destruct R. congruence. }
  destruct (F_len _ _ _ _ _ _ _ _ _ _ _ _ F (a_pred arc) PI) as [(LE & _) (wz & WZ1 & WZ2)]. rewrite WZ1.
  assert (CC : (match rej with [] => true | _ => wordSatisfiesRej rej (nth (S w) (a_words arc) []) end) = wordSatisfiesRej rej (nth (S w) (a_words arc) [])) by (destruct rej; reflexivity).
  rewrite CC. pose proof (wordSatisfies_ok rej (nth (S w) (a_words arc) [])) as WS. destruct (wordSatisfiesRej rej _); [|intro C; apply WS in C; discriminate].
  split; [reflexivity|]. pose proof (F_arc _ _ _ _ _ _ _ _ _ _ _ _ F a arc EA) as AO.
  pose proof (arc_ok_len _ _ _ _ _ _ _ _ _ _ _ AO) as AL.
  pose proof (arc_ok_firstn _ _ _ _ _ _ (S w) AO) as AF.
  assert (LT : (length p < length p0 + 2)%nat) by (rewrite typed_len; lia).
  destruct (back_ok hc ic sc dc p _ _ _ _ _ _ (length p) AF LT) as (i & B1 & Hi & BD).
  rewrite firstn_length, Nat.min_l in B1 by lia. rewrite lastrow_firstn in BD by lia.
  destruct (gp_fuel (a_pred arc) i PI ltac:(lia)) as (ws & c & E & GC & DV).
  destruct (arc_ok_last hc ic sc dc p _ _ _ _ _ _ AF LE) as [RL RM].
  { intros j Hj. eapply mset_ext; [| |apply (F_val _ _ _ _ _ _ _ _ _ _ _ _ F (a_pred arc) j PI Hj)]; [tauto|]. intros x _. now rewrite app_nil_r. }
  rewrite lastrow_firstn in RL, RM by lia. destruct (RM (length p) LT) as [_ RLB]. cbn [app] in RLB.
  set (row := scrVec (nth w (esiA st a) (mkesi [] []))) in *.
  assert (DE : D p (ws ++ firstn (S w) (a_words arc)) (length p) = nth (length p) row 0).
  { specialize (BD ws). specialize (RLB ws ltac:(exists c; auto)). cbv beta in RLB. lia. }
  unfold obtainCorrForHypSubState, bestUncorrSub. cbn [fst snd]. rewrite EA. rewrite (back_firstn _ (S w) (S w)) by lia. rewrite B1, E.
  destruct (combine_ok (ws ++ firstn (S w) (a_words arc)) (skipn (S w) (a_words arc) ++ suffix (a_succ arc) [])) as (cc & t & C1 & C2 & C3).
  { intros x Hx. apply in_app_or in Hx. destruct Hx as [Hx|Hx]; [eapply WNE; eauto|]. eapply WN; [eapply nth_error_In; eauto|]. rewrite <- (firstn_skipn (S w)). apply in_or_app. eauto. }
  { intros x Hx. apply in_app_or in Hx. destruct Hx as [Hx|Hx]; [|eapply SU; eauto]. eapply WN; [eapply nth_error_In; eauto|]. rewrite <- (firstn_skipn (S w)). apply in_or_app. eauto. }
  rewrite C1, C2. eexists. split; [reflexivity|]. exists arc, ws, c, (nth (length p) row 0), t. split; [auto|]. split; [auto|]. split; [now apply WS|]. split; [auto|].
  split; [rewrite <- DE; apply D_chg|]. split.
  { intros ws' c' d' G' C'. rewrite (chg_fun _ _ _ C' (D_chg _)), (SC _ _ _ GC), (SC _ _ _ G'). specialize (RLB ws' ltac:(exists c'; auto)). cbv beta in RLB. nia. }
  split; [|auto]. rewrite (SC _ _ _ GC), <- WZ2. rewrite (last_nth' _ _ _ (length p)) by (rewrite typed_len; lia). lia.
Qed.

Lemma sub_cands_in : forall arcs k c, In c (sub_cands ecmW wgW rest st rej k arcs) <->
  exists i arc w, nth_error arcs i = Some arc /\ (S w < length (a_words arc))%nat /\ In c (sub_cand ecmW wgW rest st rej (k + i) arc w).
Proof.
  intros arcs. induction arcs as [|arc arcs IH]; intros k c; cbn [sub_cands].
  - split; [intros []|]. intros (i & arc & w & E & _). destruct i; discriminate.
  - rewrite in_app_iff, IH. unfold arc_cands. rewrite in_concat. setoid_rewrite in_map_iff. split.
    + intros [(x & (w & <- & Hw) & Hc)|(i & arc' & w & E & H)].
      * exists 0%nat, arc, w. apply in_seq in Hw. rewrite Nat.add_0_r. split; [reflexivity|]. split; [lia|auto].
      * exists (S i), arc', w. replace (k + S i)%nat with (S k + i)%nat by lia. auto.
    + intros ([|i] & arc' & w & E & HW & Hc).
      * left. inversion E; subst arc'. rewrite Nat.add_0_r in Hc. exists (sub_cand ecmW wgW rest st rej k arc w). split; [|auto]. exists w. split; [auto|]. apply in_seq. lia.
      * right. exists i, arc', w. replace (k + S i)%nat with (S k + i)%nat in Hc by lia. auto.
Qed.

Lemma correct_wg_ok : forall n states, (0 < n)%nat -> (forall s, In s states -> exists ws c, gp s ws c) ->
  exists res, correctWg hc ic sc dc ecmW wgW G rest suffix n rej states st p = Some res /\ descending res /\ (length res <= n)%nat /\
    (forall z r, In (z, r) res -> (exists s, In s states /\ state_correction s z r) \/ (exists a w, substate_correction a w z r)) /\
    (forall s, In s states -> (exists rr, completion G rest rej s rr) -> exists z r, state_correction s z r /\ (In (z, r) res \/ (length res = n /\ forall z' r', In (z', r') res -> z <= z'))) /\
    (forall a arc w, nth_error G a = Some arc -> (S w < length (a_words arc))%nat -> compatible rej (nth (S w) (a_words arc) []) ->
       exists z r, substate_correction a w z r /\ (In (z, r) res \/ (length res = n /\ forall z' r', In (z', r') res -> z <= z'))).
Proof.
  intros n states N ST.
  assert (INS : forall s, In s states -> s = 0%nat \/ into G (length G) s) by (intros s H; destruct (ST s H) as (ws & c & GC); eapply gp_into; eauto).
  unfold correctWg, obtainNbestHypStates, obtainNbestHypSubStates.
  set (c1 := concat (map (state_cand wgW G rest st rej) states)). set (c2 := sub_cands ecmW wgW rest st rej 0 G).
  assert (C1 : forall z s, In (z, s) c1 -> In s states /\ exists r, obtainCorrForHypState hc ic sc dc G suffix st p rej s = Some r /\ state_correction s z r).
  { intros z s H. apply in_concat in H. destruct H as (x & Hx & Hz). apply in_map_iff in Hx. destruct Hx as (s' & <- & Hs). pose proof (state_ok s' (INS s' Hs)) as SO.
    destruct (state_cand wgW G rest st rej s') as [|[z' s''] [|? ?]]; [contradiction| |contradiction]. destruct SO as [-> SO]. destruct Hz as [X|[]]. inversion X; subst. auto. }
  assert (C2 : forall z aw, In (z, aw) c2 -> exists r, obtainCorrForHypSubState hc ic sc dc G suffix st p aw = Some r /\ substate_correction (fst aw) (snd aw) z r).
  { intros z aw H. apply sub_cands_in in H. destruct H as (i & arc & w & E & HW & Hc). pose proof (sub_ok i arc w E HW) as SO. cbn [plus] in Hc.
    destruct (sub_cand ecmW wgW rest st rej i arc w) as [|[z' aw'] [|? ?]]; [contradiction| |contradiction]. destruct SO as [-> SO]. destruct Hc as [X|[]]. inversion X; subst. exact SO. }
  destruct (nb_all_best n c1 N) as (hs & E1 & B1). destruct (nb_all_best n c2 N) as (hss & E2 & B2). rewrite E1, E2.
  unfold obtainNbestCorrections.
  destruct (map_opt_ok _ _ (fun c => option_map (pair (fst c)) (obtainCorrForHypState hc ic sc dc G suffix st p rej (snd c)))
    (fun x y => fst x = fst y /\ obtainCorrForHypState hc ic sc dc G suffix st p rej (snd x) = Some (snd y)) hs) as (l1 & M1 & F1).
  { intros [z s] H. destruct (C1 z s (n_best_in _ _ _ _ B1 H)) as (_ & r & E & _). cbn [fst snd]. rewrite E. exists (z, r). auto. }
  destruct (map_opt_ok _ _ (fun c => option_map (pair (fst c)) (obtainCorrForHypSubState hc ic sc dc G suffix st p (snd c)))
    (fun x y => fst x = fst y /\ obtainCorrForHypSubState hc ic sc dc G suffix st p (snd x) = Some (snd y)) hss) as (l2 & M2 & F2).
  { intros [z s] H. destruct (C2 z s (n_best_in _ _ _ _ B2 H)) as (r & E & _). cbn [fst snd]. rewrite E. exists (z, r). auto. }
  rewrite M1, M2. destruct (nb_all_best n (l1 ++ l2) N) as (res & E3 & B3). exists res. split; [exact E3|].
  assert (BK : forall A B (R : A -> B -> Prop) (hs : list (Z * A)) (l1 : list (Z * B)) y, Forall2 (fun x y => fst x = fst y /\ R (snd x) (snd y)) hs l1 -> In y l1 -> exists x, In (fst y, x) hs /\ R x (snd y)).
  { intros A B R hs' l1' y FF. induction FF as [|x y' hs' l1' H FF IH]; [intros []|]. intros [->|Hy].
    - exists (snd x). destruct H as [H1 H2]. split; [left; destruct x; cbn in *; subst; reflexivity|auto].
    - destruct (IH Hy) as (x0 & ? & ?). exists x0. split; [right; auto|auto]. }
  split; [apply B3|]. split; [destruct B3 as (_ & L & _); lia|]. split; [|split].
  - intros z r H. apply (n_best_in _ _ _ _ B3) in H. apply in_app_or in H. destruct H as [H|H].
    + destruct (BK _ _ (fun s r => obtainCorrForHypState hc ic sc dc G suffix st p rej s = Some r) _ _ _ F1 H) as (s & Hs & E). cbn [fst snd] in Hs, E.
      destruct (C1 z s (n_best_in _ _ _ _ B1 Hs)) as (IS & r' & E' & SC'). left. exists s. split; [auto|]. congruence.
    + destruct (BK _ _ (fun s r => obtainCorrForHypSubState hc ic sc dc G suffix st p s = Some r) _ _ _ F2 H) as (s & Hs & E). cbn [fst snd] in Hs, E.
      destruct (C2 z s (n_best_in _ _ _ _ B2 Hs)) as (r' & E' & SC'). right. exists (fst s), (snd s). congruence.
  - intros s Hs [rr CM]. pose proof (state_ok s (INS s Hs)) as SO. destruct (state_cand wgW G rest st rej s) as [|[z s'] [|? ?]] eqn:EC; [exfalso; eapply SO; eauto| |contradiction].
    destruct SO as [-> (r & E & SC')].
    assert (IC1 : In (z, s) c1) by (apply in_concat; eexists; split; [apply in_map_iff; exists s; split; [reflexivity|auto]|rewrite EC; left; reflexivity]).
    exists z, r. split; [exact SC'|].
    destruct (n_best_stage _ _ n c1 hs (fun s r => obtainCorrForHypState hc ic sc dc G suffix st p rej s = Some r) l1 l2 res (z, s) B1 F1 (or_introl B3) IC1) as [(r' & E' & IR)|[L GE]]; cbn [fst snd] in *.
    + left. congruence.
    + right. split; [auto|]. intros z' r' H. apply (GE (z', r') H).
  - intros a arc w EA HW CO. pose proof (sub_ok a arc w EA HW) as SO. destruct (sub_cand ecmW wgW rest st rej a arc w) as [|[z aw] [|? ?]] eqn:EC; [exfalso; apply SO; auto| |contradiction].
    destruct SO as [-> (r & E & SC')].
    assert (IC2 : In (z, (a, w)) c2) by (apply sub_cands_in; exists a, arc, w; split; [auto|]; split; [auto|]; cbn [plus]; rewrite EC; left; reflexivity).
    exists z, r. split; [exact SC'|].
    destruct (n_best_stage _ _ n c2 hss (fun s r => obtainCorrForHypSubState hc ic sc dc G suffix st p s = Some r) l2 l1 res (z, (a, w)) B2 F2 (or_intror B3) IC2) as [(r' & E' & IR)|[L GE]]; cbn [fst snd] in *.
    + left. congruence.
    + right. split; [auto|]. intros z' r' H. apply (GE (z', r') H).
Qed.
End P.
End S.

(** After a reusable history of prefixes ending with the words [p0] and the word [l] (followed by a blank iff [b]), the list of
    corrections is in descending order, has at most [n] entries, every entry is the correction of a state or of a position
    inside an arc, and an admissible state or position is only missing if the list is full and no entry is worse. *)
Theorem C96_nbest_corrections : forall (hc ic sc dc ecmW wgW : Z) (G : list warc) (s0 : Z) (Sc : nat -> Z) (rest : nat -> Z) (suffix : nat -> list nat -> list str)
    (rej : list (str * str)) (ps : list (list str)) (p0 : list str) (l : str) (b : bool) (n : nat) (states : list nat),
  0 < dc -> 0 <= ic -> 0 < ecmW ->
  (forall arc, In arc G -> a_words arc <> []) -> (forall arc w, In arc G -> In w (a_words arc) -> clean w) -> topo (map tup G) ->
  (forall s ws c, gpath (map tup G) s0 s ws c -> wgW * c = wgW * Sc s) ->
  clean l -> (forall w, In w p0 -> clean w) -> (forall s excl w, In w (suffix s excl) -> clean w) ->
  reusable_history [] (ps ++ [typed p0 l b]) -> (0 < n)%nat -> (forall s, In s states -> exists ws c, gpath (map tup G) s0 s ws c) ->
  exists st res, run hc ic sc dc ecmW wgW G s0 (ps ++ [typed p0 l b]) = Some st /\
    correctWg hc ic sc dc ecmW wgW G rest suffix n rej states st (typed p0 l b) = Some res /\ descending res /\ (length res <= n)%nat /\
    (forall z r, In (z, r) res -> (exists s, In s states /\ state_correction hc ic sc dc ecmW wgW G s0 rest suffix rej p0 l b s z r) \/
                                  (exists a w, substate_correction hc ic sc dc ecmW wgW G s0 rest suffix rej p0 l b a w z r)) /\
    (forall s, In s states -> (exists rr, completion G rest rej s rr) ->
       exists z r, state_correction hc ic sc dc ecmW wgW G s0 rest suffix rej p0 l b s z r /\ (In (z, r) res \/ (length res = n /\ forall z' r', In (z', r') res -> z <= z'))) /\
    (forall a arc w, nth_error G a = Some arc -> (S w < length (a_words arc))%nat -> compatible rej (nth (S w) (a_words arc) []) ->
       exists z r, substate_correction hc ic sc dc ecmW wgW G s0 rest suffix rej p0 l b a w z r /\ (In (z, r) res \/ (length res = n /\ forall z' r', In (z', r') res -> z <= z'))).
Proof.
  intros hc ic sc dc ecmW wgW G s0 Sc rest suffix rej ps p0 l b n states DC IC EW AN WN TP SC CL CP SU RH N ST.
  destruct (hist_typed hc ic sc dc ecmW wgW G s0 Sc DC EW (fun arc w H1 H2 => proj1 (WN arc w H1 H2)) TP SC ps p0 l b RH) as (st & E & F).
  destruct (correct_wg_ok hc ic sc dc ecmW wgW G s0 rest suffix rej p0 l b Sc DC IC EW WN AN TP SC CL CP SU st F n states N ST) as (res & E2 & R).
  exists st, res. split; [exact E|]. split; [exact E2|exact R].
Qed.
Print Assumptions C96_nbest_corrections.

(** whatever the user typed, every correction offered starts with it *)
Theorem C96_every_correction_extends_the_prefix : forall (hc ic sc dc ecmW wgW : Z) (G : list warc) (s0 : Z) (Sc : nat -> Z) (rest : nat -> Z) (suffix : nat -> list nat -> list str)
    (rej : list (str * str)) (ps : list (list str)) (p0 : list str) (l : str) (b : bool) (n : nat) (states : list nat),
  0 < dc -> 0 <= ic -> 0 < ecmW ->
  (forall arc, In arc G -> a_words arc <> []) -> (forall arc w, In arc G -> In w (a_words arc) -> clean w) -> topo (map tup G) ->
  (forall s ws c, gpath (map tup G) s0 s ws c -> wgW * c = wgW * Sc s) ->
  clean l -> (forall w, In w p0 -> clean w) -> (forall s excl w, In w (suffix s excl) -> clean w) ->
  reusable_history [] (ps ++ [typed p0 l b]) -> (0 < n)%nat -> (forall s, In s states -> exists ws c, gpath (map tup G) s0 s ws c) ->
  forall st res z r, run hc ic sc dc ecmW wgW G s0 (ps ++ [typed p0 l b]) = Some st ->
    correctWg hc ic sc dc ecmW wgW G rest suffix n rej states st (typed p0 l b) = Some res -> In (z, r) res -> extends (negb b) r (p0 ++ [l]).
Proof.
  intros hc ic sc dc ecmW wgW G s0 Sc rest suffix rej ps p0 l b n states DC IC EW AN WN TP SC CL CP SU RH N ST st res z r E1 E2 H.
  destruct (C96_nbest_corrections hc ic sc dc ecmW wgW G s0 Sc rest suffix rej ps p0 l b n states DC IC EW AN WN TP SC CL CP SU RH N ST) as (st' & res' & E1' & E2' & _ & _ & K & _).
  rewrite E1 in E1'. inversion E1'; subst st'. rewrite E2 in E2'. inversion E2'; subst res'.
  destruct (K z r H) as [(s & _ & (ws & c & d & t & rr & ex & _ & _ & _ & _ & _ & _ & -> & B))|(a & w & (arc & ws & c & d & t & _ & _ & _ & _ & _ & _ & _ & -> & B))].
  - exists p0, l, t, (suffix s ex). split; [reflexivity|]. split; [reflexivity|]. destruct b; cbn; auto; discriminate.
  - exists p0, l, t, (skipn (S w) (a_words arc) ++ suffix (a_succ arc) []). split; [reflexivity|]. split; [reflexivity|]. destruct b; cbn; auto; discriminate.
Qed.
Print Assumptions C96_every_correction_extends_the_prefix.

(** The score of a position inside an arc uses the completion score of the state where the arc starts: a correction through a
    very bad arc (score -10) is offered first with score 0, although the only sentence reading it has score -10. *)
Definition wgn : list warc := [mkarc 0 1 [s2s "a"; s2s "b"] (-10); mkarc 0 1 [s2s "c"] 0].
Theorem C96_substate_score_refuted : exists st,
  run 0 1 1 1 1 1 wgn 0 [[s2s "a "]] = Some st /\
  correctWg 0 1 1 1 1 1 wgn (fun _ => 0) (fun _ _ => []) 1 [] [0; 1]%nat st [s2s "a "] = Some [(0, [s2s "a"; s2s "b"])] /\
  forall c, gpath (map tup wgn) 0 1 [s2s "a"; s2s "b"] c -> c = -10.
Proof.
  eexists. split; [vm_compute; reflexivity|]. split; [vm_compute; reflexivity|].
  assert (Z0' : forall ws c, gpath (map tup wgn) 0 0 ws c -> ws = [] /\ c = 0).
  { intros ws c H. remember 0%nat as s eqn:E in H. destruct H as [|s t ws us c d H Hi]; [auto|]. subst t. cbn in Hi. destruct Hi as [X|[X|[]]]; inversion X. }
  intros c H. remember 1%nat as s eqn:ES in H. remember [s2s "a"; s2s "b"] as wv eqn:EW in H. destruct H as [|s t ws us c d H Hi]; [discriminate|]. cbn in Hi.
  destruct Hi as [X|[X|[]]]; inversion X; subst; apply Z0' in H; destruct H as [-> ->]; [reflexivity|discriminate].
Qed.
Print Assumptions C96_substate_score_refuted.
(** asking for zero corrections erases the first element and decrements the iterator before the beginning *)
Theorem C96_no_corrections_refuted : forall hc ic sc dc ecmW wgW G rest suffix rej st p s states z,
  state_cand wgW G rest st rej s = [(z, s)] -> correctWg hc ic sc dc ecmW wgW G rest suffix 0 rej (s :: states) st p = None.
Proof.
  intros hc ic sc dc ecmW wgW G rest suffix rej st p s states z E. unfold correctWg, obtainNbestHypStates. cbn [map concat]. rewrite E. cbn [app nb_all fold_left nb_add fst snd mm_insert length].
  cbn. assert (N : forall A (cs : list (Z * A)), fold_left (nb_add 0) cs None = None) by (intros A cs; induction cs; auto). rewrite N. reflexivity.
Qed.
Print Assumptions C96_no_corrections_refuted.
Example C96_nonvacuous : exists st, run 0 1 1 1 1 0 wgx 0 [typed [] (s2s "tha") true] = Some st /\
  correctWg 0 1 1 1 1 0 wgx (fun _ => 0) (fun s _ => match s with 0%nat => [s2s "a"; s2s "car"] | 1%nat => [s2s "car"] | _ => [] end) 2 [] [0; 1; 2]%nat st (typed [] (s2s "tha") true)
    = Some [(-1, [s2s "tha"; s2s "red"; s2s "car"]); (-2, [s2s "tha"; s2s "car"])] /\
  correctWg 0 1 1 1 1 0 wgx (fun _ => 0) (fun s _ => match s with 0%nat => [s2s "a"; s2s "car"] | 1%nat => [s2s "house"] | _ => [] end) 2 [([], s2s "red"); ([], s2s "car")] [0; 1; 2]%nat st (typed [] (s2s "tha") true)
    = Some [(-2, [s2s "tha"; s2s "house"]); (-4, [s2s "tha"; s2s "a"; s2s "car"])].
Proof. eexists. split; [vm_compute; reflexivity|]. split; vm_compute; reflexivity. Qed.
