From Coq Require Import Ascii String Arith ZArith List Bool Lia.
From Verif Require Import EditDistSpec EditDistModel EditDistProofs TextSpec TextModel EcSpec EcModel.
Import ListNotations.
Open Scope Z_scope.

Section EC.
Variables hc ic sc dc : Z.
Notation subst := (substitutionCost hc ic sc dc).
Notation psubst := (prefSubstitutionCost hc ic sc dc).
Notation wcost := (wcost hc ic sc dc).
Notation wscript := (wscript hc ic sc dc).
Notation wcell := (wcell hc ic sc dc).

Lemma aeqb : forall a b : ascii, Ascii.eqb a b = true <-> a = b.
Proof. intros. apply Ascii.eqb_eq. Qed.

Lemma subst_ok : forall a b, wcost false a b (subst a b).
Proof.
  intros a b. unfold substitutionCost, char_ops, EcSpec.wcost.
  destruct (ed_ops_weighted ascii Ascii.eqb aeqb hc sc ic dc NUL a b) as (h & i & s & d & E & W & _).
  rewrite E. cbn [weighted]. rewrite <- W. apply ed_cheapest. exact aeqb.
Qed.
Lemma psubst_ok : 0 < dc -> forall a b, b <> [] -> wcost true a b (psubst a b).
Proof.
  intros DC a b NE. unfold prefSubstitutionCost, char_pref_ops, EcSpec.wcost.
  destruct (pref_ops_full Ascii.eqb aeqb (fun _ _ => hc) (fun _ _ => sc) (fun _ => ic) (fun _ => dc) NUL
     (fun _ => Z.lt_le_incl _ _ DC) (fun _ => DC) a b NE) as (d & ops & x' & r & E & Ex & SC & CH).
  rewrite E. rewrite count_ops_spec. cbn [weighted]. rewrite <- (script_weighted _ _ _ _ _ _ _ _ _ SC). exact CH.
Qed.
Lemma cheapest_inj : forall (A : Type) (h s : A -> A -> Z) i d x y a b, cheapest h s i d x y a -> cheapest h s i d x y b -> a = b.
Proof. intros A h s i d x y a b [[o1 H1] L1] [[o2 H2] L2]. specialize (L1 _ _ H2). specialize (L2 _ _ H1). lia. Qed.
Lemma wcost_inj : forall o a b c d, wcost o a b c -> wcost o a b d -> c = d.
Proof.
  intros o a b c d. unfold EcSpec.wcost. destruct o; [|apply cheapest_inj].
  intros [(x1 & r1 & E1 & C1) L1] [(x2 & r2 & E2 & C2) L2]. specialize (L1 _ _ _ E2 C2). specialize (L2 _ _ _ E1 C1). lia.
Qed.

(** ** tagged words *)
Definition tw := (str * option bool)%type.
Definition tgx (x : list str) : list tw := map (fun w => (w, None)) x.
Fixpoint tgy (open : bool) (y : list str) : list tw :=
  match y with [] => [] | b :: y' => (b, Some (open && is_nil y')) :: tgy open y' end.
Definition t0 : tw := ([], None).
Definition tdg (a b : tw) : Z := match snd b with Some true => psubst (fst a) (fst b) | _ => subst (fst a) (fst b) end.
Definition tin (b : tw) : Z := insertionCost ic (fst b).
Definition tde (b : tw) : Z := deletionCost dc (fst b).
Definition tw_dec : forall a b : tw, {a = b} + {a <> b}.
Proof. repeat decide equality. Defined.
Definition teq (a b : tw) : bool := if tw_dec a b then true else false.
Lemma teq_ok : forall a b, teq a b = true <-> a = b.
Proof. intros. unfold teq. destruct (tw_dec a b); split; congruence. Qed.
Definition leq (complete : bool) (a b : tw) : bool := (str_eqb (fst a) (fst b) || (negb complete && isPrefix (fst b) (fst a)))%bool.

Lemma tgx_nth : forall x i, nth i (tgx x) t0 = (nth i x [], None).
Proof. intros. unfold tgx, t0. change (@nil ascii, @None bool) with ((fun w : str => (w, @None bool)) []). apply map_nth. Qed.
Lemma tgx_len : forall x, length (tgx x) = length x.
Proof. intros. apply map_length. Qed.
Lemma tgy_len : forall o y, length (tgy o y) = length y.
Proof. intros o y. induction y; simpl; auto. Qed.
Lemma tgy_nth : forall o y j, nth j (tgy o y) t0 = (nth j y [], if (j <? length y)%nat then Some (o && (S j =? length y)%nat)%bool else None).
Proof.
  intros o y. induction y as [|b y IH]; intros [|j]; auto.
  - cbn [tgy nth length Nat.ltb]. destruct y; reflexivity.
  - cbn [tgy nth length]. rewrite IH. reflexivity.
Qed.

Section CELL.
Variables (complete useDel : bool) (x y : list str).
Notation tx := (tgx x).
Notation ty := (tgy (negb complete) y).
Definition cdel (j : nat) (a : tw) : Z := pref_dcost tde useDel (length y) j a.
Definition cop (j : nat) (a : tw) : eop := if cdel j a =? 0 then PREF_DEL_OP else DEL_OP.

Lemma wcell_gen : forall dm i j, wcell complete useDel x y dm i j = cell_gen (leq complete) tdg tdg tin tde t0 cdel cop tx ty dm i j.
Proof.
  intros dm [|i] [|j]; unfold EcModel.wcell, cell_gen; try reflexivity.
  - rewrite tgy_nth. reflexivity.
  - rewrite tgx_nth. reflexivity.
  - rewrite tgx_nth, tgy_nth. unfold leq, tdg, cop, cdel, pref_dcost, tin, tde. cbn [fst snd].
    assert (D : (if (Nat.eqb (S j) (length y) && negb complete)%bool then psubst (nth i x []) (nth j y []) else subst (nth i x []) (nth j y [])) =
                match (if (j <? length y)%nat then Some (negb complete && (S j =? length y)%nat)%bool else None) with
                | Some true => psubst (nth i x []) (nth j y []) | _ => subst (nth i x []) (nth j y []) end).
    { destruct (Nat.ltb_spec j (length y)).
      - rewrite andb_comm. destruct (negb complete && _)%bool; reflexivity.
      - destruct (Nat.eqb_spec (S j) (length y)); [lia|reflexivity]. }
    rewrite D. cbv zeta. destruct (_ || _)%bool; reflexivity.
Qed.

Lemma wcell_causal : causal (wcell complete useDel x y).
Proof. intros dm dm' i j H. rewrite !wcell_gen. apply cell_gen_causal. exact H. Qed.

Lemma leq_score : forall dcost dop dm i j,
  c_score (cell_gen (leq complete) tdg tdg tin tde t0 dcost dop tx ty dm i j) = c_score (cell_gen teq tdg tdg tin tde t0 dcost dop tx ty dm i j).
Proof.
  intros dcost dop dm [|i] [|j]; try reflexivity. unfold cell_gen. cbv zeta.
  destruct (leq _ _ _), (teq _ _); cbn [c_score]; auto;
  match goal with |- context [dm i (S j) + ?u <? ?v] => destruct (dm i (S j) + u <? v) end; cbn [c_score]; destruct (_ <? _); reflexivity.
Qed.

Variable F : dmat.
Hypothesis REC : forall i j, (i <= length x)%nat -> (j <= length y)%nat -> F i j = c_score (wcell complete useDel x y F i j).
Lemma REC' : forall dop i j, (i <= length tx)%nat -> (j <= length ty)%nat -> F i j = c_score (cell_gen teq tdg tdg tin tde t0 cdel dop tx ty F i j).
Proof.
  intros dop i j. rewrite tgx_len, tgy_len. intros Hi Hj. rewrite REC by auto. rewrite wcell_gen, leq_score. apply cell_dop.
Qed.
End CELL.

(** ** tagged scripts and word scripts *)
Hypothesis DC : 0 < dc.
Notation tscript := (script tdg tdg tin tde).
Definition relabel (o : eop) : eop := match o with HIT_OP => SUBST_OP | _ => o end.

Lemma tagged_ne : forall o x y a b, In a (tgx x) -> In b (tgy o y) -> a <> b.
Proof.
  intros o x y a b Ha Hb ->. unfold tgx in Ha. apply in_map_iff in Ha. destruct Ha as (w & <- & _).
  induction y as [|c y IH]; [destruct Hb|]. destruct Hb as [E|Hb]; [discriminate|auto].
Qed.

(** words of y that are compared as unfinished must not be empty *)
Definition last_ok (open : bool) (y : list str) : Prop := open = true -> y <> [] -> last y [] <> [].

Lemma tdg_wcost : forall o a b y, last_ok o (b :: y) -> wcost (o && is_nil y) a b (tdg (a, None) (b, Some (o && is_nil y)%bool)).
Proof.
  intros o a b y H. unfold tdg. cbn [fst snd]. destruct (o && is_nil y)%bool eqn:E; [|apply subst_ok].
  apply andb_true_iff in E. destruct E as [-> E]. destruct y; [|discriminate]. apply psubst_ok; auto. apply H; auto; congruence.
Qed.
Lemma last_ok_tl : forall o b y, last_ok o (b :: y) -> last_ok o y.
Proof. intros o b y H Ho N. destruct y; [congruence|]. apply (H Ho). congruence. Qed.

Lemma t2w : forall o ops x y c, last_ok o y -> tscript (map relabel ops) (tgx x) (tgy o y) c -> wscript o ops x y c.
Proof.
  intros o ops. induction ops as [|p ops IH]; intros x y c L H.
  - inversion H. destruct x; [|discriminate]. destruct y; [|discriminate]. constructor.
  - cbn [map] in H. inversion H; subst; clear H; destruct p; try discriminate; cbn [relabel] in *; try discriminate.
    + destruct x as [|w x]; [discriminate|]. destruct y as [|v y]; [discriminate|].
      match goal with E : _ :: _ = tgx _ |- _ => cbn in E; injection E as -> -> end.
      match goal with E : _ :: _ = tgy _ _ |- _ => cbn in E; injection E as -> -> end.
      constructor; auto; [now apply tdg_wcost|]. apply IH; auto. eapply last_ok_tl; eauto.
    + destruct x as [|w x]; [discriminate|]. destruct y as [|v y]; [discriminate|].
      match goal with E : _ :: _ = tgx _ |- _ => cbn in E; injection E as -> -> end.
      match goal with E : _ :: _ = tgy _ _ |- _ => cbn in E; injection E as -> -> end.
      constructor; auto; [now apply tdg_wcost|]. apply IH; auto. eapply last_ok_tl; eauto.
    + destruct y as [|v y]; [discriminate|].
      match goal with E : _ :: _ = tgy _ _ |- _ => cbn in E; injection E as -> -> end.
      constructor. apply IH; auto. eapply last_ok_tl; eauto.
    + destruct x as [|w x]; [discriminate|].
      match goal with E : _ :: _ = tgx _ |- _ => cbn in E; injection E as -> -> end.
      constructor. apply IH; auto.
Qed.

Lemma w2t : forall o ops x y c, wscript o ops x y c -> last_ok o y -> tscript (map relabel ops) (tgx x) (tgy o y) c.
Proof.
  intros o ops x y c H. induction H as [|p ops a x b y d c Hp Hd H IH|ops x b y c H IH|ops a x y c H IH]; intro L; cbn [map tgx tgy].
  - constructor.
  - specialize (IH (last_ok_tl _ _ _ L)).
    rewrite (wcost_inj _ _ _ _ _ Hd (tdg_wcost _ a _ _ L)).
    destruct Hp as [-> | ->]; cbn [relabel]; constructor; auto; congruence.
  - specialize (IH (last_ok_tl _ _ _ L)). change (ic * Z.of_nat (length b)) with (tin (b, Some (o && is_nil y)%bool)). now constructor.
  - specialize (IH L). change (dc * Z.of_nat (length a)) with (tde (a, None)). now constructor.
Qed.

Lemma tgx_firstn : forall i x, firstn i (tgx x) = tgx (firstn i x).
Proof. intros. symmetry. unfold tgx. now rewrite firstn_map. Qed.

(** ** traceback *)
Definition ycount (ops : list eop) : nat := (count_op HIT_OP ops + count_op SUBST_OP ops + count_op INS_OP ops)%nat.
Definition xcount (ops : list eop) : nat := (count_op HIT_OP ops + count_op SUBST_OP ops + count_op DEL_OP ops)%nat.
Lemma relabel_counts : forall ops, ycount (map relabel ops) = ycount ops /\ xcount (map relabel ops) = xcount ops.
Proof.
  induction ops as [|o ops [I1 I2]]; [auto|]. unfold ycount, xcount, count_op in *. cbn [map].
  destruct o; cbn [relabel count_occ]; repeat match goal with |- context [eop_dec ?a ?b] => destruct (eop_dec a b); try congruence end; lia.
Qed.
Lemma tscript_counts : forall ops x y c, tscript (map relabel ops) x y c -> length x = xcount ops /\ length y = ycount ops.
Proof.
  intros ops x y c H. apply script_counts in H. destruct (relabel_counts ops) as [<- <-]. unfold xcount, ycount. lia.
Qed.

Section TRACE.
Variables (complete useDel : bool) (x y : list str) (F : dmat).
Notation tx := (tgx x).
Notation ty := (tgy (negb complete) y).
Hypothesis REC : forall i j, (i <= length x)%nat -> (j <= length y)%nat -> F i j = c_score (wcell complete useDel x y F i j).
Hypothesis LOK : last_ok (negb complete) y.
Hypothesis XNE : forall w, In w x -> w <> [].

Definition last_pair (j : nat) (ops ch : list eop) : Prop :=
  exists o1 p o2, ops = o1 ++ p :: o2 /\ Forall (eq DEL_OP) o2 /\ In p [HIT_OP; SUBST_OP; INS_OP] /\ ycount o1 = j /\
    (negb complete = true -> p = HIT_OP -> exists d, char_pref_ops hc ic sc dc (nth (xcount o1) x []) (last y []) = Some (d, ch)).

Lemma del_pos : forall i, (i < length x)%nat -> 0 < deletionCost dc (nth i x []).
Proof.
  intros i Hi. unfold deletionCost. specialize (XNE (nth i x []) (nth_In _ _ Hi)). destruct (nth i x []); [congruence|]. cbn [length]. lia.
Qed.

Lemma firstn_snoc_t : forall i (l : list tw), (i < length l)%nat -> firstn (S i) l = firstn i l ++ [nth i l t0].
Proof. intros. now apply firstn_snoc. Qed.

Lemma wtrace_ok : forall fuel i j ops0 ch0, (i <= length x)%nat -> (j <= length y)%nat -> (i + j < fuel)%nat ->
  exists ops ch i', wtrace hc ic sc dc complete useDel x y F fuel i j ops0 ch0 = Some (ops ++ ops0, ch) /\ (i' <= i)%nat /\
    (useDel = false \/ (j < length y)%nat \/ j = 0%nat -> i' = i) /\
    tscript (map relabel ops) (firstn i' tx) (firstn j ty) (F i j) /\
    ((j < length y)%nat -> ch = ch0) /\
    ((0 < j)%nat -> j = length y -> last_pair (j - 1) ops ch).
Proof.
  induction fuel as [|fuel IH]; intros i j ops0 ch0 Hi Hj Hf; [lia|].
  assert (F0 : F 0%nat 0%nat = 0) by (rewrite REC by lia; reflexivity).
  destruct i as [|i], j as [|j].
  - exists [], ch0, 0%nat. rewrite F0. repeat split; auto; try lia. constructor.
  - cbn [EcModel.wtrace EcModel.wcell c_pi c_pj c_op not_pref_del]. rewrite andb_false_r.
    destruct (IH 0%nat j (INS_OP :: ops0) ch0) as (ops & ch & i' & T & L & E' & SC & CH & LP); try lia. rewrite T.
    exists (ops ++ [INS_OP]), ch, 0%nat. rewrite <- app_assoc.
    assert (i' = 0)%nat by lia. subst i'.
    split; [reflexivity|]. split; [lia|]. split; [auto|]. split; [|split; [intros; apply CH; lia|]].
    + rewrite (firstn_snoc_t j ty) by (rewrite tgy_len; lia). rewrite map_app. replace (firstn 0 tx) with (firstn 0 tx ++ []) by apply app_nil_r.
      eapply script_eq; [|apply script_app; [exact SC|apply script_ins1]]. rewrite (REC 0 (S j)) by lia. unfold tin. rewrite tgy_nth. reflexivity.
    + intros _ EJ. exists ops, INS_OP, []. repeat split; auto; [simpl; auto| |congruence].
      apply tscript_counts in SC. rewrite !firstn_length, tgy_len in SC. lia.
  - cbn [EcModel.wtrace EcModel.wcell c_pi c_pj c_op not_pref_del]. rewrite andb_false_r.
    destruct (IH i 0%nat (DEL_OP :: ops0) ch0) as (ops & ch & i' & T & L & E' & SC & CH & LP); try lia. rewrite T.
    assert (i' = i) by auto. subst i'.
    exists (ops ++ [DEL_OP]), ch, (S i). rewrite <- app_assoc.
    split; [reflexivity|]. split; [lia|]. split; [auto|]. split; [|split; [exact CH|lia]].
    rewrite (firstn_snoc_t i tx) by (rewrite tgx_len; lia). rewrite map_app. replace (firstn 0 ty) with (firstn 0 ty ++ []) by apply app_nil_r.
    eapply script_eq; [|apply script_app; [exact SC|apply script_del1]]. rewrite (REC (S i) 0) by lia. unfold tde. rewrite tgx_nth. reflexivity.
  - pose proof (REC (S i) (S j) Hi Hj) as R.
    destruct (cell_att (leq complete) tdg tdg tin tde t0 (cdel useDel y) (cop useDel y) tx ty F i j) as [E|[E|E]]; rewrite <- wcell_gen in E;
      rewrite E in R; cbn [c_score] in R; cbn [EcModel.wtrace]; rewrite E; cbn [c_pi c_pj c_op].
    + (* pair *)
      assert (P : dgo (leq complete) (nth i tx t0) (nth j ty t0) = HIT_OP \/ dgo (leq complete) (nth i tx t0) (nth j ty t0) = SUBST_OP)
        by (unfold dgo; destruct (leq _ _ _); auto).
      set (p := dgo (leq complete) (nth i tx t0) (nth j ty t0)) in *.
      assert (NP : not_pref_del p = true) by (destruct P as [-> | ->]; reflexivity). rewrite NP.
      assert (RR : F (S i) (S j) = F i j + tdg (nth i tx t0) (nth j ty t0)) by (rewrite R; unfold dgc; destruct (leq _ _ _); reflexivity).
      assert (RP : relabel p = SUBST_OP) by (destruct P as [-> | ->]; reflexivity).
      assert (ST : forall o x1 y1 c, tscript (map relabel o) x1 y1 c -> tscript (map relabel (o ++ [p])) (x1 ++ [nth i tx t0]) (y1 ++ [nth j ty t0]) (c + tdg (nth i tx t0) (nth j ty t0))).
      { intros o x1 y1 c SC. rewrite map_app. apply script_app; auto. cbn [map]. rewrite RP. eapply script_eq; [|constructor; [|constructor]]; [lia|].
        apply (tagged_ne (negb complete) x y); apply nth_In; rewrite ?tgx_len, ?tgy_len; lia. }
      destruct (Nat.eqb (j + 1) (length y) && negb complete && match p with HIT_OP => true | _ => false end)%bool eqn:G.
      * apply andb_true_iff in G. destruct G as [G G3]. apply andb_true_iff in G. destruct G as [G1 G2]. apply Nat.eqb_eq in G1.
        assert (YN : last y [] <> []) by (apply LOK; auto; destruct y; [simpl in *; lia|congruence]).
        destruct (pref_ops_full Ascii.eqb aeqb (fun _ _ => hc) (fun _ _ => sc) (fun _ => ic) (fun _ => dc) NUL
          (fun _ => Z.lt_le_incl _ _ DC) (fun _ => DC) (nth i x []) (last y []) YN) as (d & co & x' & r & EC & _ & _ & _).
        unfold char_pref_ops. rewrite EC.
        destruct (IH i j (p :: ops0) co) as (ops & ch & i' & T & L & E' & SC & CH & LP); try lia. rewrite T.
        assert (i' = i) by (apply E'; lia). subst i'.
        exists (ops ++ [p]), ch, (S i). rewrite <- app_assoc. split; [reflexivity|]. split; [lia|]. split; [auto|].
        split; [|split; [intros; exfalso; lia|]].
        -- rewrite (firstn_snoc_t i tx), (firstn_snoc_t j ty) by (rewrite ?tgx_len, ?tgy_len; lia). rewrite RR. now apply ST.
        -- intros _ _. apply tscript_counts in SC. rewrite !firstn_length, tgy_len, tgx_len in SC.
           exists ops, p, []. repeat split; auto; [destruct P as [-> | ->]; simpl; auto|lia|].
           intros _ _. exists d. rewrite CH by lia. replace (xcount ops) with i by lia. exact EC.
      * destruct (IH i j (p :: ops0) ch0) as (ops & ch & i' & T & L & E' & SC & CH & LP); try lia. rewrite T.
        assert (i' = i) by (apply E'; lia). subst i'.
        exists (ops ++ [p]), ch, (S i). rewrite <- app_assoc. split; [reflexivity|]. split; [lia|]. split; [auto|].
        split; [|split; [intros; apply CH; lia|]].
        -- rewrite (firstn_snoc_t i tx), (firstn_snoc_t j ty) by (rewrite ?tgx_len, ?tgy_len; lia). rewrite RR. now apply ST.
        -- intros _ EJ. apply tscript_counts in SC. rewrite !firstn_length, tgy_len, tgx_len in SC.
           exists ops, p, []. repeat split; auto; [destruct P as [-> | ->]; simpl; auto|lia|].
           intros O HP. exfalso. rewrite HP, O in G. replace (j + 1)%nat with (length y) in G by lia. rewrite Nat.eqb_refl in G. discriminate.
    + (* deletion *)
      assert (NH : match cop useDel y (S j) (nth i tx t0) with HIT_OP => true | _ => false end = false) by (unfold cop; destruct (_ =? 0); reflexivity).
      rewrite NH, andb_false_r. rewrite tgx_nth in *.
      destruct (useDel && (S j =? length y)%nat)%bool eqn:LS.
      * assert (C0 : cdel useDel y (S j) (nth i x [], None) = 0) by (unfold cdel, pref_dcost; rewrite LS; reflexivity).
        unfold cop in *. rewrite C0 in *. cbn [Z.eqb not_pref_del].
        apply andb_true_iff in LS. destruct LS as [U LS]. apply Nat.eqb_eq in LS.
        destruct (IH i (S j) ops0 ch0) as (ops & ch & i' & T & L & E' & SC & CH & LP); try lia. rewrite T.
        exists ops, ch, i'. split; [reflexivity|]. split; [lia|]. split; [intros [?|[?|?]]; [congruence|lia|lia]|].
        split; [rewrite R, Z.add_0_r; exact SC|]. split; auto.
      * assert (C0 : cdel useDel y (S j) (nth i x [], None) = deletionCost dc (nth i x [])) by (unfold cdel, pref_dcost; rewrite LS; reflexivity).
        pose proof (del_pos i ltac:(lia)) as DP.
        unfold cop in *. rewrite C0 in *. destruct (Z.eqb_spec (deletionCost dc (nth i x [])) 0) as [Z0|_]; [lia|]. cbn [not_pref_del].
        destruct (IH i (S j) (DEL_OP :: ops0) ch0) as (ops & ch & i' & T & L & E' & SC & CH & LP); try lia. rewrite T.
        assert (i' = i). { apply E'. apply andb_false_iff in LS. destruct LS as [LS|LS]; [auto|]. apply Nat.eqb_neq in LS. lia. } subst i'.
        exists (ops ++ [DEL_OP]), ch, (S i). rewrite <- app_assoc. split; [reflexivity|]. split; [lia|]. split; [auto|].
        split; [|split; [exact CH|]].
        -- rewrite (firstn_snoc_t i tx) by (rewrite tgx_len; lia). rewrite map_app, tgx_nth. replace (firstn (S j) ty) with (firstn (S j) ty ++ []) by apply app_nil_r.
           rewrite R. apply script_app; auto. apply (script_del1 tdg tdg tin tde (nth i x [], None)).
        -- intros _ EJ. destruct (LP ltac:(lia) EJ) as (o1 & p & o2 & EO & FA & IP & YC & HC).
           exists o1, p, (o2 ++ [DEL_OP]). split; [rewrite EO, <- app_assoc; reflexivity|]. split; [apply Forall_app; auto|]. auto.
    + (* insertion *)
      rewrite andb_false_r. cbn [not_pref_del].
      destruct (IH (S i) j (INS_OP :: ops0) ch0) as (ops & ch & i' & T & L & E' & SC & CH & LP); try lia. rewrite T.
      assert (i' = S i) by (apply E'; lia). subst i'.
      exists (ops ++ [INS_OP]), ch, (S i). rewrite <- app_assoc. split; [reflexivity|]. split; [lia|]. split; [auto|].
      split; [|split; [intros; apply CH; lia|]].
      * rewrite (firstn_snoc_t j ty) by (rewrite tgy_len; lia). rewrite map_app. replace (firstn (S i) tx) with (firstn (S i) tx ++ []) by apply app_nil_r.
        rewrite R. apply script_app; [exact SC|apply script_ins1].
      * intros _ EJ. exists ops, INS_OP, []. repeat split; auto; [simpl; auto| |congruence].
        apply tscript_counts in SC. rewrite !firstn_length, tgy_len in SC. lia.
Qed.
End TRACE.

Definition open_of (y : list str) : bool := negb (pref_complete y).

Lemma pref_words_len : forall y, length (pref_words y) = length y.
Proof.
  intros y. unfold pref_words, set_last. destruct y as [|a y]; [reflexivity|]. rewrite app_length. cbn [length].
  pose proof (f_equal (@length _) (app_removelast_last [] (l := a :: y) ltac:(congruence))) as E. rewrite app_length in E. cbn [length] in E. cbn [length]. lia.
Qed.
Lemma pref_words_last : forall y, y <> [] -> pref_words y = removelast y ++ [last (pref_words y) []].
Proof. intros y N. unfold pref_words, set_last. destruct y; [congruence|]. now rewrite last_last. Qed.
Lemma pref_words_open : forall y, y <> [] -> open_of y = true -> pref_words y = y.
Proof.
  intros y N O. unfold pref_words, set_last. unfold open_of in O. apply negb_true_iff in O. rewrite O. destruct y; [congruence|].
  symmetry. apply app_removelast_last. congruence.
Qed.

Lemma wmatrix_rec : forall useDel x y i j, (i <= length x)%nat -> (j <= length (pref_words y))%nat ->
  wmatrix hc ic sc dc useDel x y i j = c_score (wcell (pref_complete y) useDel x (pref_words y) (wmatrix hc ic sc dc useDel x y) i j).
Proof.
  intros useDel x y i j Hi Hj. rewrite pref_words_len in Hj. unfold wmatrix. apply fill_ok; [apply wcell_causal|lia|lia].
Qed.

Definition kept (useDel : bool) (r : list str) : Prop := useDel = false -> r = [].

Lemma last_ok_pref : forall y, y <> [] -> last y [] <> [] -> last_ok (negb (pref_complete y)) (pref_words y).
Proof. intros y N L O _. change (negb (pref_complete y)) with (open_of y) in O. now rewrite pref_words_open. Qed.

Theorem wops : forall useDel (x y : list str), y <> [] -> last y [] <> [] -> (forall w, In w x -> w <> []) ->
  exists d ops ch x' r, wEditDistPrefixOps hc ic sc dc useDel x y = Some (d, (ops, ch)) /\ x = x' ++ r /\ kept useDel r /\
    wscript (open_of y) ops x' (pref_words y) d /\
    (forall x1 r1 ops1 c, x = x1 ++ r1 -> kept useDel r1 -> wscript (open_of y) ops1 x1 (pref_words y) c -> d <= c) /\
    last_pair (pref_complete y) x (pref_words y) (length y - 1) ops ch.
Proof.
  intros useDel x y N LN XN. pose proof (last_ok_pref y N LN) as LOK.
  set (F := wmatrix hc ic sc dc useDel x y).
  assert (REC : forall i j, (i <= length x)%nat -> (j <= length (pref_words y))%nat -> F i j = c_score (wcell (pref_complete y) useDel x (pref_words y) F i j))
    by (intros; now apply wmatrix_rec).
  destruct (wtrace_ok (pref_complete y) useDel x (pref_words y) F REC LOK XN (S (length x + length y)) (length x) (length y) [] [])
    as (ops & ch & i' & T & L & E' & SC & _ & LP); try (rewrite ?pref_words_len; lia).
  exists (F (length x) (length y)), ops, ch, (firstn i' x), (skipn i' x).
  unfold wEditDistPrefixOps. fold F. rewrite T, app_nil_r.
  split; [reflexivity|]. split; [symmetry; apply firstn_skipn|]. split; [|split; [|split]].
  - intro U. rewrite E' by auto. apply skipn_all.
  - apply t2w; auto. rewrite <- tgx_firstn. replace (tgy (open_of y) (pref_words y)) with (firstn (length y) (tgy (open_of y) (pref_words y))); [exact SC|].
    rewrite <- (pref_words_len y), <- (tgy_len (open_of y)). apply firstn_all.
  - intros x1 r1 ops1 c E K W. apply w2t in W; auto.
    pose proof (REC' (pref_complete y) useDel x (pref_words y) F REC (fun _ _ => DEL_OP)) as R'.
    assert (DL : forall j a, cdel useDel (pref_words y) j a <= tde a).
    { intros j a. unfold cdel, pref_dcost, tde, deletionCost. destruct (_ && _)%bool; nia. }
    pose proof (lower teq teq_ok tdg tdg tin tde t0 _ _ _ _ F R' DL _ _ _ _ W [] [] (tgx r1) []) as LB.
    rewrite app_nil_r in LB. cbn [app length plus] in LB.
    assert (F0 : F 0%nat 0%nat = 0) by (rewrite REC by lia; reflexivity).
    rewrite F0, tgx_len, tgy_len, pref_words_len in LB. unfold tgx in LB. rewrite <- map_app, <- E in LB. specialize (LB eq_refl eq_refl).
    destruct useDel eqn:U.
    + pose proof (free_tail teq tdg tdg tin tde t0 _ _ _ _ F R') as FT. rewrite tgy_len, pref_words_len, tgx_len in FT.
      specialize (FT ltac:(destruct y; [congruence|simpl; lia])).
      specialize (FT ltac:(intros a; unfold cdel, pref_dcost; rewrite pref_words_len, Nat.eqb_refl; reflexivity)).
      specialize (FT (length x1) (length r1)). rewrite E, app_length in *. specialize (FT ltac:(lia)). lia.
    + rewrite K in E by auto. rewrite app_nil_r in E. subst x1. lia.
  - apply LP; [destruct y; [congruence|simpl; lia]|now rewrite pref_words_len].
Qed.

(** ** correction *)
Lemma correctWord_loop_ok : forall ops x' p' c, script (fun _ _ => hc) (fun _ _ => sc) (fun _ => ic) (fun _ => dc) ops x' p' c ->
  forall w0 p0 r acc, correctWord_loop ops (w0 ++ x' ++ r) (p0 ++ p') (length w0) (length p0) acc = Some (acc ++ p', length w0 + length x')%nat.
Proof.
  assert (NE : forall (l1 l2 : str) c, nth_error (l1 ++ c :: l2) (length l1) = Some c).
  { intros l1 l2 c. rewrite nth_error_app2, Nat.sub_diag by lia. reflexivity. }
  assert (SH : forall (l1 l2 : str) c, l1 ++ c :: l2 = (l1 ++ [c]) ++ l2) by (intros; rewrite <- app_assoc; reflexivity).
  assert (LS : forall (l1 : str) c, S (length l1) = length (l1 ++ [c])) by (intros; rewrite app_length; simpl; lia).
  intros ops x' p' c H. induction H as [|o x y c a b E H IH|o x y c a b E H IH|o x y c b H IH|o x y c a H IH]; intros w0 p0 r acc; cbn [correctWord_loop app length].
  - rewrite app_nil_r, Nat.add_0_r. reflexivity.
  - rewrite NE. rewrite (SH w0), (SH p0), (LS w0 a), (LS p0 b), IH. subst b. rewrite app_length, <- app_assoc. cbn [length app]. do 2 f_equal. lia.
  - rewrite NE. rewrite (SH w0), (SH p0), (LS w0 a), (LS p0 b), IH. rewrite app_length, <- app_assoc. cbn [length app]. do 2 f_equal. lia.
  - rewrite NE. rewrite (SH p0), (LS p0 b), IH. rewrite <- app_assoc. reflexivity.
  - rewrite (SH w0), (LS w0 a), IH. rewrite app_length. cbn [length]. do 2 f_equal. lia.
Qed.

Lemma correctWord_ok : forall w p d ch, p <> [] -> char_pref_ops hc ic sc dc w p = Some (d, ch) ->
  exists t, correctWordGivenPrefOps ch w p = Some (p ++ t).
Proof.
  intros w p d ch N E.
  destruct (pref_ops_full Ascii.eqb aeqb (fun _ _ => hc) (fun _ _ => sc) (fun _ => ic) (fun _ => dc) NUL
          (fun _ => Z.lt_le_incl _ _ DC) (fun _ => DC) w p N) as (d' & co & x' & r & EC & Ew & SC & _).
  unfold char_pref_ops in E. rewrite EC in E. injection E as -> ->.
  exists r. unfold correctWordGivenPrefOps.
  pose proof (correctWord_loop_ok _ _ _ _ SC [] [] r []) as L. cbn [app length plus] in L. rewrite <- Ew in L. rewrite L.
  rewrite Ew at 1. rewrite skipn_app, skipn_all, Nat.sub_diag. reflexivity.
Qed.

(** the prefix as the front end produces it: no empty words, blanks only at the end of the last word *)
Definition wf_prefix (p : list str) : Prop :=
  p <> [] /\ last p [] <> [] /\ forall w, In w (removelast p) -> ends_blank w = Some false.

Definition word_op (o : eop) : Prop := In o [HIT_OP; SUBST_OP; INS_OP; DEL_OP].
Lemma wscript_ops : forall o ops x y c, wscript o ops x y c -> Forall word_op ops /\ length x = xcount ops /\ length y = ycount ops.
Proof.
  intros o ops x y c H. induction H as [|q ops a x b y d c Hq _ H (I1 & I2 & I3)|ops x b y c H (I1 & I2 & I3)|ops a x y c H (I1 & I2 & I3)].
  - repeat split; constructor.
  - unfold xcount, ycount, count_op in *. destruct Hq as [-> | ->]; (split; [constructor; [unfold word_op; simpl; auto|auto]|]);
    cbn [count_occ length]; repeat match goal with |- context [eop_dec ?a ?b] => destruct (eop_dec a b); try congruence end; lia.
  - split; [constructor; [unfold word_op; simpl; auto|auto]|]. unfold xcount, ycount, count_op in *.
    cbn [count_occ length]; repeat match goal with |- context [eop_dec ?a ?b] => destruct (eop_dec a b); try congruence end; lia.
  - split; [constructor; [unfold word_op; simpl; auto|auto]|]. unfold xcount, ycount, count_op in *.
    cbn [count_occ length]; repeat match goal with |- context [eop_dec ?a ?b] => destruct (eop_dec a b); try congruence end; lia.
Qed.

Lemma removelast_len : forall p : list str, p <> [] -> length p = (length (removelast p) + 1)%nat.
Proof. intros p N. rewrite (app_removelast_last (A:=str) [] N) at 1. rewrite app_length. reflexivity. Qed.

Lemma some3 : forall (a : list str) (b b' c c' : nat), b = b' -> c = c' -> Some (a, b, c) = Some (a, b', c').
Proof. congruence. Qed.
Section CORR.
Variables (chars : list eop) (x p : list str) (ly : str).
Hypothesis WF : wf_prefix p.

Lemma p_nth : forall j, (S j < length p)%nat -> exists w, nth_error p j = Some w /\ ends_blank w = Some false /\ skipn j p = w :: skipn (S j) p.
Proof.
  intros j Hj. destruct WF as (N & _ & W). 
  destruct (nth_error p j) as [w|] eqn:E; [|apply nth_error_None in E; lia]. exists w. split; [auto|]. split.
  - apply W. apply nth_error_In with j. rewrite (app_removelast_last (A:=str) [] N) in E.
    pose proof (removelast_len p N) as EL.
    rewrite nth_error_app1 in E by lia. exact E.
  - clear - E. revert j E. induction p as [|a q IH]; intros [|j] E; try discriminate; cbn in *; [congruence|]. auto.
Qed.

Lemma cloop1 : forall ops acc i j, Forall word_op ops -> (j + ycount ops < length p)%nat ->
  correct_loop chars x p ly ops (acc, i, j) = Some (acc ++ firstn (ycount ops) (skipn j p), i + xcount ops, j + ycount ops)%nat.
Proof.
  induction ops as [|o ops IH]; intros acc i j FA HL.
  - cbn. rewrite app_nil_r, !Nat.add_0_r. reflexivity.
  - inversion FA as [|? ? HO FA']; subst.
    assert (HH : o = HIT_OP \/ o = SUBST_OP -> correct_loop chars x p ly (o :: ops) (acc, i, j) =
         Some (acc ++ firstn (ycount (o :: ops)) (skipn j p), i + xcount (o :: ops), j + ycount (o :: ops))%nat).
    { intro HS.
      assert (CX : xcount (o :: ops) = S (xcount ops) /\ ycount (o :: ops) = S (ycount ops)).
      { unfold xcount, ycount, count_op. destruct HS as [-> | ->]; cbn [count_occ]; repeat match goal with |- context [eop_dec ?a ?b] => destruct (eop_dec a b); try congruence end; lia. }
      destruct CX as [CX CY]. rewrite CX, CY in *. destruct (p_nth j ltac:(lia)) as (w & E & EB & SK).
      assert (ST : correct_step chars x p ly (acc, i, j) o = Some (acc ++ [w], S i, S j)).
      { destruct HS as [-> | ->]; cbn [correct_step]; rewrite E; destruct (Nat.eqb_spec j (length p - 1)); try lia; reflexivity. }
      cbn [correct_loop]. rewrite ST, IH by (auto; lia). rewrite SK. cbn [firstn]. rewrite <- app_assoc. cbn [app]. apply some3; lia. }
    destruct HO as [<-|[<-|[<-|[<-|[]]]]]; auto.
    + assert (CX : xcount (INS_OP :: ops) = xcount ops /\ ycount (INS_OP :: ops) = S (ycount ops)).
      { unfold xcount, ycount, count_op. cbn [count_occ]; repeat match goal with |- context [eop_dec ?a ?b] => destruct (eop_dec a b); try congruence end; lia. }
      destruct CX as [CX CY]. rewrite CX, CY in *. destruct (p_nth j ltac:(lia)) as (w & E & EB & SK).
      cbn [correct_loop correct_step]. rewrite E, EB, IH by (auto; lia). rewrite SK. cbn [firstn]. rewrite <- app_assoc. cbn [app]. apply some3; lia.
    + assert (CX : xcount (DEL_OP :: ops) = S (xcount ops) /\ ycount (DEL_OP :: ops) = ycount ops).
      { unfold xcount, ycount, count_op. cbn [count_occ]; repeat match goal with |- context [eop_dec ?a ?b] => destruct (eop_dec a b); try congruence end; lia. }
      destruct CX as [CX CY]. rewrite CX, CY in *. cbn [correct_loop correct_step]. rewrite IH by (auto; lia). apply some3; lia.
Qed.
Lemma cloop_del : forall ops acc i j, Forall (eq DEL_OP) ops -> correct_loop chars x p ly ops (acc, i, j) = Some (acc, i + length ops, j)%nat.
Proof.
  induction ops as [|o ops IH]; intros acc i j FA; [cbn; now rewrite Nat.add_0_r|]. inversion FA; subst.
  cbn [correct_loop correct_step]. rewrite IH by auto. cbn [length]. apply some3; lia.
Qed.
End CORR.

Lemma correct_loop_app : forall ch x p ly o1 o2 st, correct_loop ch x p ly (o1 ++ o2) st =
  match correct_loop ch x p ly o1 st with None => None | Some st' => correct_loop ch x p ly o2 st' end.
Proof. intros ch x p ly o1. induction o1 as [|o o1 IH]; intros o2 st; [reflexivity|]. cbn [app correct_loop]. destruct (correct_step _ _ _ _ _ _); auto. Qed.

Lemma count_cons_app : forall o1 q o2, xcount (o1 ++ q :: o2) = (xcount o1 + xcount [q] + xcount o2)%nat /\ ycount (o1 ++ q :: o2) = (ycount o1 + ycount [q] + ycount o2)%nat.
Proof.
  intros. unfold xcount, ycount, count_op. rewrite !count_occ_app. 
  change (q :: o2) with ([q] ++ o2). rewrite !count_occ_app. lia.
Qed.
Lemma count_dels : forall o, Forall (eq DEL_OP) o -> xcount o = length o /\ ycount o = 0%nat.
Proof.
  intros o H. induction H as [|q o E H [I1 I2]]; [auto|]. subst q. unfold xcount, ycount, count_op in *. cbn [count_occ length].
  repeat match goal with |- context [eop_dec ?a ?b] => destruct (eop_dec a b); try congruence end; lia.
Qed.

Lemma last_nth_str : forall l : str, last l NUL = nth (length l - 1) l NUL.
Proof.
  induction l as [|a l IH]; [reflexivity|]. destruct l as [|b l]; [reflexivity|].
  change (last (a :: b :: l) NUL) with (last (b :: l) NUL). rewrite IH. cbn [length]. replace (S (S (length l)) - 1)%nat with (S (S (length l) - 1))%nat by lia. reflexivity.
Qed.
Lemma ends_blank_complete : forall p : list str, p <> [] -> last p [] <> [] -> ends_blank (last p []) = Some (pref_complete p).
Proof.
  intros p N L. unfold pref_complete. destruct p as [|a q]; [congruence|]. revert L. generalize (last (a :: q) (@nil ascii)). intros w L.
  unfold ends_blank, lastCharIsBlank. destruct w as [|c w]; [congruence|]. rewrite <- last_nth_str. reflexivity.
Qed.

Theorem correct_ok : forall useDel (x p : list str), wf_prefix p -> (forall w, In w x -> w <> []) ->
  exists d L x' r, correct_given_prefix hc ic sc dc useDel x p = Some (d, removelast p ++ L :: r) /\ x = x' ++ r /\ kept useDel r /\
    (exists ops, wscript (open_of p) ops x' (pref_words p) d) /\
    (forall x1 r1 ops1 c, x = x1 ++ r1 -> kept useDel r1 -> wscript (open_of p) ops1 x1 (pref_words p) c -> d <= c) /\
    (pref_complete p = true -> L = strip_blanks (last p [])) /\ (pref_complete p = false -> exists t, L = last p [] ++ t).
Proof.
  intros useDel x p WF XN. pose proof WF as (N & LN & W).
  destruct (wops useDel x p N LN XN) as (d & ops & ch & x' & r & E & Ex & K & SC & LB & LP).
  destruct LP as (o1 & q & o2 & EO & FD & IQ & YC & HC).
  pose proof (wscript_ops _ _ _ _ _ SC) as (FA & CX & CY). rewrite pref_words_len in CY.
  destruct (count_cons_app o1 q o2) as [C1 C2]. rewrite <- EO in C1, C2. destruct (count_dels o2 FD) as [D1 D2].
  pose proof (removelast_len p N) as PL.
  unfold correct_given_prefix. rewrite E. unfold correctStrGivenPrefOps. cbn [fst snd].
  pose proof (ends_blank_complete p N LN) as EB.
  set (ly := if pref_complete p then strip_blanks (last p []) else last p []).
  assert (LY : match p with [] => Some [] | _ => match ends_blank (last p []) with None => None | Some true => Some (strip_blanks (last p [])) | Some false => Some (last p []) end end = Some ly).
  { destruct p; [congruence|]. rewrite EB. unfold ly. destruct (pref_complete _); reflexivity. }
  rewrite LY.
  rewrite EO, correct_loop_app. assert (FA1 : Forall word_op o1) by (rewrite EO in FA; apply Forall_app in FA; tauto).
  rewrite (cloop1 ch x p ly WF) by (auto; lia). cbn [app plus skipn correct_loop].
  assert (FN : firstn (ycount o1) p = removelast p).
  { rewrite (app_removelast_last (A:=str) [] N) at 1. rewrite firstn_app. replace (ycount o1 - length (removelast p))%nat with 0%nat by lia.
    rewrite firstn_O, app_nil_r, firstn_all2 by lia. reflexivity. }
  assert (NL : nth_error p (ycount o1) = Some (last p [])).
  { rewrite (app_removelast_last (A:=str) [] N) at 1. rewrite nth_error_app2 by lia. replace (ycount o1 - length (removelast p))%nat with 0%nat by lia. reflexivity. }
  rewrite FN.
  assert (X1 : xcount [HIT_OP] = 1%nat) by reflexivity. assert (X2 : xcount [SUBST_OP] = 1%nat) by reflexivity. assert (X3 : xcount [INS_OP] = 0%nat) by reflexivity.
  assert (ST : exists L i', correct_step ch x p ly (removelast p, xcount o1, ycount o1) q = Some (removelast p ++ [L], i', S (ycount o1)) /\
     i' = (xcount o1 + xcount [q])%nat /\
     (pref_complete p = true -> L = strip_blanks (last p [])) /\ (pref_complete p = false -> exists t, L = last p [] ++ t)).
  { destruct IQ as [<-|[<-|[<-|[]]]]; cbn [correct_step]; rewrite NL.
    - destruct (Nat.eqb_spec (ycount o1) (length p - 1)) as [_|NE]; [|exfalso; apply NE; lia]. cbn [negb]. rewrite EB. destruct (pref_complete p) eqn:PC.
      + do 2 eexists. split; [reflexivity|]. split; [lia|]. split; [reflexivity|congruence].
      + destruct (HC eq_refl eq_refl) as (dd & EC). rewrite (pref_words_open p N) in EC by (unfold open_of; now rewrite PC).
        destruct (nth_error x (xcount o1)) as [u|] eqn:EU.
        * rewrite (nth_error_nth x _ [] EU) in EC. destruct (correctWord_ok u (last p []) dd ch LN EC) as (t & ->).
          do 2 eexists. split; [reflexivity|]. split; [lia|]. split; [congruence|eauto].
        * apply nth_error_None in EU. exfalso. rewrite Ex, app_length in EU. lia.
    - destruct (Nat.eqb_spec (ycount o1) (length p - 1)) as [_|NE]; [|exfalso; apply NE; lia]. cbn [negb]. rewrite EB. destruct (pref_complete p) eqn:PC.
      + do 2 eexists. split; [reflexivity|]. split; [lia|]. split; [reflexivity|congruence].
      + do 2 eexists. split; [reflexivity|]. split; [lia|]. split; [congruence|]. intros _. exists []. now rewrite app_nil_r.
    - rewrite EB. do 2 eexists. split; [reflexivity|]. split; [lia|]. destruct (pref_complete p) eqn:PC.
      + split; [reflexivity|congruence].
      + split; [congruence|]. intros _. exists []. now rewrite app_nil_r. }
  destruct ST as (L & i' & -> & -> & HL1 & HL2). rewrite cloop_del by auto.
  exists d, L, x', r. split; [|split; [exact Ex|split; [exact K|split; [eauto|split; [exact LB|split; assumption]]]]].
  rewrite <- app_assoc. cbn [app]. do 4 f_equal. rewrite Ex. replace (xcount o1 + xcount [q] + length o2)%nat with (length x') by lia.
  rewrite skipn_app, skipn_all, Nat.sub_diag. reflexivity.
Qed.

(** ** prefixes given as clean words plus an optional final blank *)
Definition clean (w : str) : Prop := w <> [] /\ ~ In SP w.
Definition typed (p0 : list str) (l : str) (complete : bool) : list str := p0 ++ [if complete then l ++ [SP] else l].

Lemma clean_last : forall w, clean w -> ends_blank w = Some false.
Proof.
  intros w [N B]. unfold ends_blank. destruct w as [|c w]; [congruence|]. f_equal. destruct (Ascii.eqb_spec (last (c :: w) NUL) SP) as [E|]; [|reflexivity].
  exfalso. apply B. rewrite <- E. rewrite (app_removelast_last NUL (l := c :: w)) at 2 by congruence. apply in_or_app. right. left. reflexivity.
Qed.
Lemma strip_app : forall w, clean w -> strip_blanks (w ++ [SP]) = w.
Proof.
  intros w [N B]. induction w as [|c w IH]; [congruence|]. cbn [app strip_blanks].
  assert (NC : Ascii.eqb c SP = false) by (destruct (Ascii.eqb_spec c SP); [subst; exfalso; apply B; left; reflexivity|auto]).
  destruct w as [|c' w].
  - cbn. rewrite NC. reflexivity.
  - rewrite IH; [reflexivity|congruence|intro H; apply B; right; exact H].
Qed.
Lemma typed_facts : forall p0 l b, clean l -> (forall w, In w p0 -> clean w) ->
  wf_prefix (typed p0 l b) /\ pref_complete (typed p0 l b) = b /\ pref_words (typed p0 l b) = p0 ++ [l] /\ removelast (typed p0 l b) = p0 /\
  last (typed p0 l b) [] = (if b then l ++ [SP] else l).
Proof.
  intros p0 l b CL CP. unfold typed.
  assert (RL : removelast (p0 ++ [if b then l ++ [SP] else l]) = p0) by apply removelast_last.
  assert (LL : last (p0 ++ [if b then l ++ [SP] else l]) [] = if b then l ++ [SP] else l) by apply last_last.
  assert (NE : p0 ++ [if b then l ++ [SP] else l] <> []) by (destruct p0; discriminate).
  assert (LN : (if b then l ++ [SP] else l) <> []) by (destruct b; [destruct l; discriminate|apply CL]).
  assert (PC : pref_complete (p0 ++ [if b then l ++ [SP] else l]) = b).
  { assert (EB : ends_blank (last (p0 ++ [if b then l ++ [SP] else l]) []) = Some (pref_complete (p0 ++ [if b then l ++ [SP] else l]))).
    { apply ends_blank_complete; auto. now rewrite LL. }
    rewrite LL in EB. destruct b.
    - unfold ends_blank in EB. destruct (l ++ [SP]) eqn:EL; [destruct l; discriminate|]. rewrite <- EL in EB. rewrite last_last, Ascii.eqb_refl in EB. congruence.
    - rewrite (clean_last l CL) in EB. congruence. }
  split; [|split; [exact PC|split; [|split; [exact RL|exact LL]]]].
  - unfold wf_prefix. rewrite RL, LL. repeat split; auto. intros w H. apply clean_last. auto.
  - unfold pref_words. rewrite PC, LL. unfold set_last. destruct (p0 ++ [if b then l ++ [SP] else l]) eqn:E; [congruence|]. rewrite RL.
    destruct b; [|reflexivity]. do 2 f_equal. unfold removeLastBlank, lastCharIsBlank. rewrite <- last_nth_str, last_last, app_length. cbn [length].
    replace (0 <? length l + 1)%nat with true by (symmetry; apply Nat.ltb_lt; lia). cbn [andb]. rewrite Ascii.eqb_refl.
    replace (length l + 1 - 1)%nat with (length l) by lia. rewrite firstn_app, firstn_all, Nat.sub_diag. cbn. apply app_nil_r.
Qed.

Theorem typed_ops : forall useDel (x p0 : list str) l b, clean l -> (forall w, In w p0 -> clean w) -> (forall w, In w x -> w <> []) ->
  exists d ops ch x' r, wEditDistPrefixOps hc ic sc dc useDel x (typed p0 l b) = Some (d, (ops, ch)) /\ x = x' ++ r /\ kept useDel r /\
    wscript (negb b) ops x' (p0 ++ [l]) d /\
    (forall x1 r1 ops1 c, x = x1 ++ r1 -> kept useDel r1 -> wscript (negb b) ops1 x1 (p0 ++ [l]) c -> d <= c).
Proof.
  intros useDel x p0 l b CL CP XN. destruct (typed_facts p0 l b CL CP) as ((N & LN & _) & PC & PW & _ & _).
  destruct (wops useDel x (typed p0 l b) N LN XN) as (d & ops & ch & x' & r & E & Ex & K & SC & LB & _).
  unfold open_of in *. rewrite PC, PW in *. exists d, ops, ch, x', r. auto.
Qed.

Theorem typed_correct : forall useDel (x p0 : list str) l b, clean l -> (forall w, In w p0 -> clean w) -> (forall w, In w x -> w <> []) ->
  exists d t x' r, correct_given_prefix hc ic sc dc useDel x (typed p0 l b) = Some (d, p0 ++ (l ++ t) :: r) /\ x = x' ++ r /\ kept useDel r /\
    (b = true -> t = []) /\ (exists ops, wscript (negb b) ops x' (p0 ++ [l]) d).
Proof.
  intros useDel x p0 l b CL CP XN. destruct (typed_facts p0 l b CL CP) as (WF & PC & PW & RL & LL).
  destruct (correct_ok useDel x (typed p0 l b) WF XN) as (d & L & x' & r & E & Ex & K & SC & _ & H1 & H2).
  unfold open_of in *. rewrite PC, PW, RL, LL in *. destruct b.
  - rewrite H1, strip_app in E by auto. exists d, [], x', r. rewrite app_nil_r. auto.
  - destruct (H2 eq_refl) as (t & ->). exists d, t, x', r. repeat split; auto. congruence.
Qed.

(** ** the cost cache *)
Definition scm_ok (m : scmap) : Prop := forall (k y : str) v, scm_find (k, y) m = Some v ->
  (exists x : str, ~ In SP x /\ k = x ++ PREF /\ v = psubst x y) \/ (~ In SP k /\ v = subst k y).
Lemma str_eqb_true : forall a b, str_eqb a b = true <-> a = b.
Proof. intros. unfold str_eqb. destruct (list_eq_dec _ a b); split; congruence. Qed.
Lemma pref_sp : forall x, In SP (x ++ PREF).
Proof. intro x. apply in_or_app. right. left. reflexivity. Qed.
Lemma scm_cons : forall k y v m k' y', scm_find (k', y') (((k, y), v) :: m) = if (str_eqb k k' && str_eqb y y')%bool then Some v else scm_find (k', y') m.
Proof. reflexivity. Qed.
Lemma cache_subst : forall (x y : str) m, ~ In SP x -> scm_ok m -> fst (cachedSubstCost hc ic sc dc x y m) = subst x y /\ scm_ok (snd (cachedSubstCost hc ic sc dc x y m)).
Proof.
  intros x y m NB OK. unfold cachedSubstCost. destruct (scm_find (x, y) m) as [v|] eqn:E; cbn [fst snd].
  - split; [|exact OK]. destruct (OK _ _ _ E) as [(x0 & _ & -> & _)|[_ H]]; [exfalso; apply NB, pref_sp|exact H].
  - split; [reflexivity|]. intros k y' v H. rewrite scm_cons in H. destruct (str_eqb x k && str_eqb y y')%bool eqn:C; [|apply OK; exact H].
    apply andb_true_iff in C. rewrite !str_eqb_true in C. destruct C as [-> ->]. injection H as <-. right. auto.
Qed.
Lemma cache_psubst : forall (x y : str) m, ~ In SP x -> scm_ok m -> fst (cachedPrefSubstCost hc ic sc dc x y m) = psubst x y /\ scm_ok (snd (cachedPrefSubstCost hc ic sc dc x y m)).
Proof.
  intros x y m NB OK. unfold cachedPrefSubstCost. destruct (scm_find (x ++ PREF, y) m) as [v|] eqn:E; cbn [fst snd].
  - split; [|exact OK]. destruct (OK _ _ _ E) as [(x0 & _ & E1 & H)|[N _]]; [|exfalso; apply N, pref_sp]. apply app_inv_tail in E1. now subst.
  - split; [reflexivity|]. intros k y' v H. rewrite scm_cons in H. destruct (str_eqb (x ++ PREF) k && str_eqb y y')%bool eqn:C; [|apply OK; exact H].
    apply andb_true_iff in C. rewrite !str_eqb_true in C. destruct C as [<- ->]. injection H as <-. left. eauto.
Qed.
End EC.
