From Coq Require Import Arith ZArith List Bool Lia.
From Verif Require Import EditDistSpec EditDistModel.
Import ListNotations.
Open Scope Z_scope.

(** ** filling the matrix solves the recurrence *)
Definition causal (cell : dmat -> nat -> nat -> cellres) : Prop :=
  forall dm dm' i j, (forall i' j', (i' <= i)%nat -> (j' <= j)%nat -> ~ (i' = i /\ j' = j) -> dm i' j' = dm' i' j') -> cell dm i j = cell dm' i j.

Lemma dm_set_same : forall dm i j v, dm_set dm i j v i j = v.
Proof. intros. unfold dm_set. now rewrite !Nat.eqb_refl. Qed.
Lemma dm_set_other : forall dm i j v i' j', ~ (i' = i /\ j' = j) -> dm_set dm i j v i' j' = dm i' j'.
Proof.
  intros. unfold dm_set. destruct (Nat.eqb_spec i' i), (Nat.eqb_spec j' j); auto. exfalso; auto.
Qed.

Section FILL.
Variable cell : dmat -> nat -> nat -> cellres.
Hypothesis C : causal cell.

Lemma fill_row_ok : forall n i dm, let dm' := fill_row cell i n dm in
  (forall i' j', i' <> i -> dm' i' j' = dm i' j') /\ (forall j, (j < n)%nat -> dm' i j = c_score (cell dm' i j)).
Proof.
  intros n i dm. unfold fill_row. induction n as [|n IH].
  - split; [auto|intros; lia].
  - rewrite seq_S, fold_left_app. cbn [fold_left plus]. cbv zeta in *.
    set (d := fold_left (fun dm j => dm_set dm i j (c_score (cell dm i j))) (seq 0 n) dm) in *. destruct IH as [I1 I2].
    split.
    + intros i' j' NE. rewrite dm_set_other by tauto. auto.
    + intros j Hj. destruct (Nat.eq_dec j n) as [->|NE].
      * rewrite dm_set_same. f_equal. apply C. intros i' j' _ _ N. now rewrite dm_set_other.
      * rewrite dm_set_other by tauto. rewrite I2 by lia. f_equal. apply C. intros i' j' _ Hj' _. rewrite dm_set_other; auto. lia.
Qed.

Lemma fill_ok : forall m n dm i j, (i < m)%nat -> (j < n)%nat -> fill cell m n dm i j = c_score (cell (fill cell m n dm) i j).
Proof.
  intros m n dm. unfold fill. induction m as [|m IH]; intros i j Hi Hj; [lia|].
  rewrite seq_S, fold_left_app. cbn [fold_left plus].
  set (d := fold_left (fun dm i => fill_row cell i n dm) (seq 0 m) dm) in *.
  destruct (fill_row_ok n m d) as [R1 R2]. destruct (Nat.eq_dec i m) as [->|NE]; [auto|].
  rewrite R1 by auto. rewrite IH by lia. f_equal. apply C. intros i' j' Hi' _ _. rewrite R1; auto. lia.
Qed.
End FILL.

Section EDP.
Context {A : Type}.
Variable eqb : A -> A -> bool.
Hypothesis EQ : forall a b, eqb a b = true <-> a = b.
Variables (hitc subc : A -> A -> Z) (insc delc : A -> Z).
Variable d0 : A.
Notation script := (script hitc subc insc delc).

Lemma cell_gen_causal : forall dcost dop x y, causal (cell_gen eqb hitc subc insc delc d0 dcost dop x y).
Proof.
  intros dcost dop x y dm dm' i j H. unfold cell_gen. destruct i as [|i], j as [|j]; auto.
  - rewrite (H 0%nat j) by lia. reflexivity.
  - rewrite (H i 0%nat) by lia. reflexivity.
  - rewrite (H i j), (H i (S j)), (H (S i) j) by lia. reflexivity.
Qed.

Definition dgc (a b : A) : Z := if eqb a b then hitc a b else subc a b.
Definition dgo (a b : A) : eop := if eqb a b then HIT_OP else SUBST_OP.

(** the recurrence as inequalities plus one attained choice *)
Lemma cell_ge : forall dcost dop x y dm i j, let s := c_score (cell_gen eqb hitc subc insc delc d0 dcost dop x y dm (S i) (S j)) in
  s <= dm i j + dgc (nth i x d0) (nth j y d0) /\ s <= dm i (S j) + dcost (S j) (nth i x d0) /\ s <= dm (S i) j + insc (nth j y d0).
Proof.
  intros dcost dop x y dm i j. unfold cell_gen, dgc. cbv zeta.
  destruct (eqb (nth i x d0) (nth j y d0)); cbn [c_score];
  (match goal with |- context [dm i (S j) + dcost (S j) (nth i x d0) <? ?b] => destruct (Z.ltb_spec (dm i (S j) + dcost (S j) (nth i x d0)) b) end; cbn [c_score];
   match goal with |- context [dm (S i) j + insc (nth j y d0) <? ?b] => destruct (Z.ltb_spec (dm (S i) j + insc (nth j y d0)) b) end; cbn [c_score]); lia.
Qed.

Lemma cell_att : forall dcost dop x y dm i j, let r := cell_gen eqb hitc subc insc delc d0 dcost dop x y dm (S i) (S j) in
  let a := nth i x d0 in let b := nth j y d0 in
  r = mkcell (dm i j + dgc a b) i j (dgo a b) \/ r = mkcell (dm i (S j) + dcost (S j) a) i (S j) (dop (S j) a) \/
  r = mkcell (dm (S i) j + insc b) (S i) j INS_OP.
Proof.
  intros dcost dop x y dm i j. unfold cell_gen, dgc, dgo. cbv zeta.
  destruct (eqb (nth i x d0) (nth j y d0)); cbn [c_score];
  (match goal with |- context [dm i (S j) + dcost (S j) (nth i x d0) <? ?b] => destruct (Z.ltb_spec (dm i (S j) + dcost (S j) (nth i x d0)) b) end; cbn [c_score];
   match goal with |- context [dm (S i) j + insc (nth j y d0) <? ?b] => destruct (Z.ltb_spec (dm (S i) j + insc (nth j y d0)) b) end; cbn [c_score]); auto.
Qed.

Lemma cell_dop : forall dcost dop dop' x y dm i j,
  c_score (cell_gen eqb hitc subc insc delc d0 dcost dop x y dm i j) = c_score (cell_gen eqb hitc subc insc delc d0 dcost dop' x y dm i j).
Proof.
  intros dcost dop dop' x y dm i j. unfold cell_gen. destruct i as [|i], j as [|j]; auto. cbv zeta.
  set (r1 := if eqb _ _ then _ else _).
  destruct (dm i (S j) + dcost (S j) (nth i x d0) <? c_score r1); cbn [c_score].
  - destruct (_ <? _); reflexivity.
  - reflexivity.
Qed.

(** ** scripts *)
Lemma script_app : forall o1 x1 y1 c1 o2 x2 y2 c2, script o1 x1 y1 c1 -> script o2 x2 y2 c2 -> script (o1 ++ o2) (x1 ++ x2) (y1 ++ y2) (c1 + c2).
Proof.
  intros o1 x1 y1 c1 o2 x2 y2 c2 H1 H2. induction H1; simpl; auto;
  rewrite <- Z.add_assoc; econstructor; eauto.
Qed.
Lemma script_eq : forall o x y c c', c = c' -> script o x y c -> script o x y c'.
Proof. intros; subst; auto. Qed.
Lemma script_dg1 : forall a b, script [dgo a b] [a] [b] (dgc a b).
Proof.
  intros a b. unfold dgo, dgc. destruct (eqb a b) eqn:E.
  - apply script_eq with (hitc a b + 0); [lia|]. constructor; [now apply EQ|constructor].
  - apply script_eq with (subc a b + 0); [lia|]. constructor; [|constructor]. intro X. apply EQ in X. congruence.
Qed.
Lemma script_ins1 : forall b, script [INS_OP] [] [b] (insc b).
Proof. intro b. apply script_eq with (insc b + 0); [lia|]. constructor. constructor. Qed.
Lemma script_del1 : forall b, script [DEL_OP] [b] [] (delc b).
Proof. intro b. apply script_eq with (delc b + 0); [lia|]. constructor. constructor. Qed.

Lemma firstn_snoc : forall i (l : list A), (i < length l)%nat -> firstn (S i) l = firstn i l ++ [nth i l d0].
Proof. induction i; destruct l; simpl; intros; try lia; auto. f_equal. apply IHi. lia. Qed.

Lemma nth_mid : forall (a b : list A) n, n = length a -> forall c, nth n (a ++ c :: b) d0 = c.
Proof. intros a b n -> c. rewrite app_nth2, Nat.sub_diag; auto. Qed.

(** a matrix solving the recurrence *)
Section REC.
Variables (dcost : nat -> A -> Z) (dop : nat -> A -> eop) (x y : list A) (F : dmat).
Notation cell := (cell_gen eqb hitc subc insc delc d0 dcost dop x y).
Hypothesis REC : forall i j, (i <= length x)%nat -> (j <= length y)%nat -> F i j = c_score (cell F i j).

Lemma F00 : F 0%nat 0%nat = 0.
Proof. rewrite REC by lia. reflexivity. Qed.

(** no script beats the table *)
Lemma lower : (forall j a, dcost j a <= delc a) ->
  forall o x2 y2 c, script o x2 y2 c -> forall x1 y1 x3 y3, x = x1 ++ x2 ++ x3 -> y = y1 ++ y2 ++ y3 ->
  F (length x1 + length x2)%nat (length y1 + length y2)%nat <= F (length x1) (length y1) + c.
Proof.
  intros DC o x2 y2 c H. induction H as [|o x2 y2 c a b E H IH|o x2 y2 c a b E H IH|o x2 y2 c b H IH|o x2 y2 c a H IH]; intros x1 y1 x3 y3 Ex Ey.
  - simpl. rewrite !Nat.add_0_r. lia.
  - specialize (IH (x1 ++ [a]) (y1 ++ [b]) x3 y3). rewrite <- !app_assoc in IH. specialize (IH Ex Ey). rewrite !app_length in IH. simpl length in *.
    replace (length x1 + S (length x2))%nat with (length x1 + 1 + length x2)%nat by lia.
    replace (length y1 + S (length y2))%nat with (length y1 + 1 + length y2)%nat by lia.
    assert (F (length x1 + 1)%nat (length y1 + 1)%nat <= F (length x1) (length y1) + hitc a b); [|lia].
    rewrite REC by (rewrite ?Ex, ?Ey, !app_length; simpl; lia). rewrite !Nat.add_1_r.
    pose proof (cell_ge dcost dop x y F (length x1) (length y1)) as (G & _ & _). cbv zeta in G.
    assert (Na : nth (length x1) x d0 = a) by (rewrite Ex; now apply nth_mid).
    assert (Nb : nth (length y1) y d0 = b) by (rewrite Ey; now apply nth_mid).
    unfold dgc in G. rewrite Na, Nb in G. apply EQ in E. rewrite E in G. auto.
  - specialize (IH (x1 ++ [a]) (y1 ++ [b]) x3 y3). rewrite <- !app_assoc in IH. specialize (IH Ex Ey). rewrite !app_length in IH. simpl length in *.
    replace (length x1 + S (length x2))%nat with (length x1 + 1 + length x2)%nat by lia.
    replace (length y1 + S (length y2))%nat with (length y1 + 1 + length y2)%nat by lia.
    assert (F (length x1 + 1)%nat (length y1 + 1)%nat <= F (length x1) (length y1) + subc a b); [|lia].
    rewrite REC by (rewrite ?Ex, ?Ey, !app_length; simpl; lia). rewrite !Nat.add_1_r.
    pose proof (cell_ge dcost dop x y F (length x1) (length y1)) as (G & _ & _). cbv zeta in G.
    assert (Na : nth (length x1) x d0 = a) by (rewrite Ex; now apply nth_mid).
    assert (Nb : nth (length y1) y d0 = b) by (rewrite Ey; now apply nth_mid).
    unfold dgc in G. rewrite Na, Nb in G.
    destruct (eqb a b) eqn:E2; [apply EQ in E2; contradiction|auto].
  - specialize (IH x1 (y1 ++ [b]) x3 y3 Ex). rewrite <- !app_assoc in IH. specialize (IH Ey). rewrite !app_length in IH. simpl length in *.
    replace (length y1 + S (length y2))%nat with (length y1 + 1 + length y2)%nat by lia.
    assert (F (length x1) (length y1 + 1)%nat <= F (length x1) (length y1) + insc b); [|lia].
    rewrite REC by (rewrite ?Ex, ?Ey, !app_length; simpl; lia). rewrite !Nat.add_1_r.
    assert (Nb : nth (length y1) y d0 = b) by (rewrite Ey; now apply nth_mid).
    destruct (length x1) as [|i].
    + cbn [cell_gen c_score]. rewrite Nb. lia.
    + pose proof (cell_ge dcost dop x y F i (length y1)) as (_ & _ & G). cbv zeta in G. rewrite Nb in G. auto.
  - specialize (IH (x1 ++ [a]) y1 x3 y3). rewrite <- !app_assoc in IH. specialize (IH Ex Ey). rewrite !app_length in IH. simpl length in *.
    replace (length x1 + S (length x2))%nat with (length x1 + 1 + length x2)%nat by lia.
    assert (F (length x1 + 1)%nat (length y1) <= F (length x1) (length y1) + delc a); [|lia].
    rewrite REC by (rewrite ?Ex, ?Ey, !app_length; simpl; lia). rewrite !Nat.add_1_r.
    assert (Nb : nth (length x1) x d0 = a) by (rewrite Ex; now apply nth_mid).
    destruct (length y1) as [|j].
    + cbn [cell_gen c_score]. rewrite Nb. lia.
    + pose proof (cell_ge dcost dop x y F (length x1) j) as (_ & G & _). cbv zeta in G. rewrite Nb in G. specialize (DC (S j) a). lia.
Qed.

(** column |y|: a free deletion never increases the value *)
Lemma free_tail : (0 < length y)%nat -> (forall a, dcost (length y) a = 0) ->
  forall i k, (i + k <= length x)%nat -> F (i + k)%nat (length y) <= F i (length y).
Proof.
  intros Hy Z0 i k. induction k as [|k IH]; intro Hk; [rewrite Nat.add_0_r; lia|].
  rewrite Nat.add_succ_r. rewrite REC by lia. destruct (length y) as [|j] eqn:EL; [lia|].
  pose proof (cell_ge dcost dop x y F (i + k) j) as (_ & G & _). cbv zeta in G. rewrite Z0 in G. specialize (IH ltac:(lia)). lia.
Qed.

(** the traceback, when deletions carry their ordinary cost and name *)
Lemma trace_ok : (forall j a, dcost j a = delc a) -> (forall j a, dop j a = DEL_OP) ->
  forall fuel i j acc, (i <= length x)%nat -> (j <= length y)%nat -> (i + j < fuel)%nat ->
  exists ops, trace cell F fuel i j acc = Some (ops ++ acc) /\ script ops (firstn i x) (firstn j y) (F i j).
Proof.
  intros DC DO. induction fuel as [|fuel IH]; intros i j acc Hi Hj Hf; [lia|].
  destruct i as [|i], j as [|j].
  - exists []. rewrite F00. split; [reflexivity|constructor].
  - cbn [trace cell_gen c_pi c_pj c_op]. destruct (IH 0%nat j (INS_OP :: acc)) as (ops & T & SC); try lia. cbn [cell_gen] in T. rewrite T.
    exists (ops ++ [INS_OP]). rewrite <- app_assoc. split; auto.
    rewrite (firstn_snoc j y) by lia. replace (firstn 0 x) with (firstn 0 x ++ []) by apply app_nil_r.
    apply script_eq with (F 0%nat j + insc (nth j y d0)); [now rewrite (REC 0 (S j)) by lia|]. apply script_app; auto. apply script_ins1.
  - cbn [trace cell_gen c_pi c_pj c_op]. destruct (IH i 0%nat (DEL_OP :: acc)) as (ops & T & SC); try lia. rewrite T.
    exists (ops ++ [DEL_OP]). rewrite <- app_assoc. split; auto.
    rewrite (firstn_snoc i x) by lia. replace (firstn 0 y) with (firstn 0 y ++ []) by apply app_nil_r.
    apply script_eq with (F i 0%nat + delc (nth i x d0)); [now rewrite (REC (S i) 0) by lia|]. apply script_app; auto. apply script_del1.
  - cbn [trace]. rewrite (REC (S i) (S j)) by lia.
    destruct (cell_att dcost dop x y F i j) as [E|[E|E]]; rewrite E; cbn [c_pi c_pj c_op c_score].
    + destruct (IH i j (dgo (nth i x d0) (nth j y d0) :: acc)) as (ops & T & SC); try lia. rewrite T.
      eexists (ops ++ [_]). rewrite <- app_assoc. split; [reflexivity|].
      rewrite (firstn_snoc i x), (firstn_snoc j y) by lia. apply script_app; auto. apply script_dg1.
    + destruct (IH i (S j) (dop (S j) (nth i x d0) :: acc)) as (ops & T & SC); try lia. rewrite T.
      eexists (ops ++ [_]). rewrite <- app_assoc. split; [reflexivity|]. rewrite DC, DO.
      rewrite (firstn_snoc i x) by lia. replace (firstn (S j) y) with (firstn (S j) y ++ []) by apply app_nil_r.
      apply script_app; auto. apply script_del1.
    + destruct (IH (S i) j (INS_OP :: acc)) as (ops & T & SC); try lia. rewrite T.
      eexists (ops ++ [_]). rewrite <- app_assoc. split; [reflexivity|].
      rewrite (firstn_snoc j y) by lia. replace (firstn (S i) x) with (firstn (S i) x ++ []) by apply app_nil_r.
      apply script_app; auto. apply script_ins1.
Qed.

(** the traceback with free deletions in the last column: the remaining operations edit a prefix of x *)
Lemma trace_pref_ok : (forall j a, (0 < j < length y)%nat -> dcost j a = delc a /\ dop j a = DEL_OP) ->
  (forall a, dcost (length y) a = 0 /\ dop (length y) a = PREF_DEL_OP) ->
  forall fuel i j acc, (i <= length x)%nat -> (j <= length y)%nat -> (i + j < fuel)%nat ->
  exists ops i', trace cell F fuel i j acc = Some (ops ++ acc) /\ (i' <= i)%nat /\ ((j < length y)%nat \/ j = 0%nat -> i' = i) /\
     script (filter not_pref_del ops) (firstn i' x) (firstn j y) (F i j).
Proof.
  intros DC DP. induction fuel as [|fuel IH]; intros i j acc Hi Hj Hf; [lia|].
  destruct i as [|i], j as [|j].
  - exists [], 0%nat. rewrite F00. repeat split; auto. constructor.
  - cbn [trace cell_gen c_pi c_pj c_op]. destruct (IH 0%nat j (INS_OP :: acc)) as (ops & i' & T & L & E' & SC); try lia. cbn [cell_gen] in T. rewrite T.
    exists (ops ++ [INS_OP]), 0%nat. rewrite <- app_assoc. repeat split; auto.
    assert (i' = 0)%nat by lia. subst i'. rewrite filter_app. cbn [filter not_pref_del].
    rewrite (firstn_snoc j y) by lia. replace (firstn 0 x) with (firstn 0 x ++ []) by apply app_nil_r.
    apply script_eq with (F 0%nat j + insc (nth j y d0)); [now rewrite (REC 0 (S j)) by lia|]. apply script_app; auto. apply script_ins1.
  - cbn [trace cell_gen c_pi c_pj c_op]. destruct (IH i 0%nat (DEL_OP :: acc)) as (ops & i' & T & L & E' & SC); try lia. rewrite T.
    exists (ops ++ [DEL_OP]), (Datatypes.S i). rewrite <- app_assoc. repeat split; auto. rewrite E' in * by auto.
    rewrite filter_app. cbn [filter not_pref_del].
    rewrite (firstn_snoc i x) by lia. replace (firstn 0 y) with (firstn 0 y ++ []) by apply app_nil_r.
    apply script_eq with (F i 0%nat + delc (nth i x d0)); [now rewrite (REC (Datatypes.S i) 0) by lia|]. apply script_app; auto. apply script_del1.
  - cbn [trace]. rewrite (REC (S i) (S j)) by lia.
    destruct (cell_att dcost dop x y F i j) as [E|[E|E]]; rewrite E; cbn [c_pi c_pj c_op c_score].
    + destruct (IH i j (dgo (nth i x d0) (nth j y d0) :: acc)) as (ops & i' & T & L & E' & SC); try lia. rewrite T.
      eexists (ops ++ [_]), (Datatypes.S i). rewrite <- app_assoc. split; [reflexivity|]. repeat split; auto.
      rewrite E' in * by lia.
      rewrite filter_app. replace (filter not_pref_del [dgo (nth i x d0) (nth j y d0)]) with [dgo (nth i x d0) (nth j y d0)]
        by (unfold dgo; destruct (eqb _ _); reflexivity).
      rewrite (firstn_snoc i x), (firstn_snoc j y) by lia. apply script_app; auto. apply script_dg1.
    + destruct (IH i (S j) (dop (S j) (nth i x d0) :: acc)) as (ops & i' & T & L & E' & SC); try lia. rewrite T.
      destruct (Nat.eq_dec (Datatypes.S j) (length y)) as [EJ|NJ].
      * destruct (DP (nth i x d0)) as [D1 D2]. rewrite EJ, D1, D2.
        exists (ops ++ [PREF_DEL_OP]), i'. rewrite <- app_assoc. split; [reflexivity|]. split; [lia|]. split; [lia|].
        rewrite filter_app. cbn [filter not_pref_del]. rewrite app_nil_r, Z.add_0_r. rewrite <- EJ. auto.
      * destruct (DC (Datatypes.S j) (nth i x d0)) as [D1 D2]; [lia|]. rewrite D1, D2.
        exists (ops ++ [DEL_OP]), (Datatypes.S i). rewrite <- app_assoc. split; [reflexivity|]. split; [lia|]. split; [lia|].
        rewrite E' in * by lia. rewrite filter_app. cbn [filter not_pref_del].
        rewrite (firstn_snoc i x) by lia. replace (firstn (Datatypes.S j) y) with (firstn (Datatypes.S j) y ++ []) by apply app_nil_r.
        apply script_app; auto. apply script_del1.
    + destruct (IH (S i) j (INS_OP :: acc)) as (ops & i' & T & L & E' & SC); try lia. rewrite T.
      eexists (ops ++ [_]), i'. rewrite <- app_assoc. split; [reflexivity|]. rewrite E' in * by lia. repeat split; auto.
      rewrite filter_app. cbn [filter not_pref_del].
      rewrite (firstn_snoc j y) by lia. replace (firstn (Datatypes.S i) x) with (firstn (Datatypes.S i) x ++ []) by apply app_nil_r.
      apply script_app; auto. apply script_ins1.
Qed.

(** value version: also when ordinary deletions are free *)
Lemma pref_value_ok : (forall j a, (0 < j < length y)%nat -> dcost j a = delc a) -> (forall a, dcost (length y) a = 0) ->
  forall n i j, (i + j <= n)%nat -> (i <= length x)%nat -> (j <= length y)%nat ->
  exists ops i', (i' <= i)%nat /\ ((j < length y)%nat \/ j = 0%nat -> i' = i) /\ script ops (firstn i' x) (firstn j y) (F i j).
Proof.
  intros DC DP. induction n as [|n IH]; intros i j Hn Hi Hj.
  - assert (i = 0 /\ j = 0)%nat as [-> ->] by lia. exists [], 0%nat. rewrite F00. repeat split; auto. constructor.
  - destruct i as [|i], j as [|j].
    + exists [], 0%nat. rewrite F00. repeat split; auto. constructor.
    + destruct (IH 0%nat j) as (ops & i' & L & E' & SC); try lia.
      exists (ops ++ [INS_OP]), 0%nat. repeat split; auto.
      assert (i' = 0)%nat by lia. subst i'.
      rewrite (firstn_snoc j y) by lia. replace (firstn 0 x) with (firstn 0 x ++ []) by apply app_nil_r.
      apply script_eq with (F 0%nat j + insc (nth j y d0)); [now rewrite (REC 0 (Datatypes.S j)) by lia|]. apply script_app; auto. apply script_ins1.
    + destruct (IH i 0%nat) as (ops & i' & L & E' & SC); try lia.
      exists (ops ++ [DEL_OP]), (Datatypes.S i). repeat split; auto. rewrite E' in * by auto.
      rewrite (firstn_snoc i x) by lia. replace (firstn 0 y) with (firstn 0 y ++ []) by apply app_nil_r.
      apply script_eq with (F i 0%nat + delc (nth i x d0)); [now rewrite (REC (Datatypes.S i) 0) by lia|]. apply script_app; auto. apply script_del1.
    + rewrite (REC (S i) (S j)) by lia.
      destruct (cell_att dcost dop x y F i j) as [E|[E|E]]; rewrite E; cbn [c_score].
      * destruct (IH i j) as (ops & i' & L & E' & SC); try lia.
        eexists (ops ++ [_]), (Datatypes.S i). repeat split; auto. rewrite E' in * by lia.
        rewrite (firstn_snoc i x), (firstn_snoc j y) by lia. apply script_app; auto. apply script_dg1.
      * destruct (IH i (S j)) as (ops & i' & L & E' & SC); try lia.
        destruct (Nat.eq_dec (Datatypes.S j) (length y)) as [EJ|NJ].
        -- rewrite EJ, DP. exists ops, i'. split; [lia|]. split; [lia|]. rewrite Z.add_0_r. rewrite <- EJ. auto.
        -- rewrite DC by lia. exists (ops ++ [DEL_OP]), (Datatypes.S i). split; [lia|]. split; [lia|]. rewrite E' in * by lia.
           rewrite (firstn_snoc i x) by lia. replace (firstn (Datatypes.S j) y) with (firstn (Datatypes.S j) y ++ []) by apply app_nil_r.
           apply script_app; auto. apply script_del1.
      * destruct (IH (S i) j) as (ops & i' & L & E' & SC); try lia.
        eexists (ops ++ [_]), i'. rewrite E' in * by lia. repeat split; auto.
        rewrite (firstn_snoc j y) by lia. replace (firstn (Datatypes.S i) x) with (firstn (Datatypes.S i) x ++ []) by apply app_nil_r.
        apply script_app; auto. apply script_ins1.
Qed.
End REC.

Notation ed_matrix := (ed_matrix eqb hitc subc insc delc d0).
Notation calculateEditDist := (calculateEditDist eqb hitc subc insc delc d0).
Notation calculateEditDistOps := (calculateEditDistOps eqb hitc subc insc delc d0).
Notation pref_matrix := (pref_matrix eqb hitc subc insc delc d0).
Notation calculateEditDistPrefixOps := (calculateEditDistPrefixOps eqb hitc subc insc delc d0).
Notation cheapest := (cheapest hitc subc insc delc).
Notation cheapest_prefix := (cheapest_prefix hitc subc insc delc).

Lemma ed_rec : forall x y i j, (i <= length x)%nat -> (j <= length y)%nat ->
  ed_matrix x y i j = c_score (cell_gen eqb hitc subc insc delc d0 (fun _ => delc) (fun _ _ => DEL_OP) x y (ed_matrix x y) i j).
Proof. intros x y i j Hi Hj. apply fill_ok; [apply cell_gen_causal|lia|lia]. Qed.

Theorem ed_cheapest : forall x y, cheapest x y (calculateEditDist x y).
Proof.
  intros x y. unfold EditDistModel.calculateEditDist. split.
  - destruct (trace_ok _ _ x y (ed_matrix x y) (ed_rec x y) (fun _ _ => eq_refl) (fun _ _ => eq_refl)
      (S (length x + length y)) (length x) (length y) []) as (ops & _ & H); try lia.
    rewrite !firstn_all in H. eauto.
  - intros ops c H.
    pose proof (lower _ _ x y (ed_matrix x y) (ed_rec x y) (fun _ _ => Z.le_refl _) ops x y c H [] [] [] []) as L.
    rewrite !app_nil_r in L. specialize (L eq_refl eq_refl). cbn [length plus] in L. rewrite (F00 _ _ x y (ed_matrix x y) (ed_rec x y)) in L. lia.
Qed.

Lemma count_ops_spec : forall ops, count_ops ops = (count_op HIT_OP ops, count_op INS_OP ops, count_op SUBST_OP ops, count_op DEL_OP ops).
Proof.
  intro ops. unfold count_ops. 
  assert (G : forall h i s d, fold_left (fun c o => let '(h, i, s, d) := c in
     match o with
     | HIT_OP => (S h, i, s, d) | INS_OP => (h, S i, s, d) | SUBST_OP => (h, i, S s, d) | DEL_OP => (h, i, s, S d)
     | _ => c end) ops (h, i, s, d) =
     (h + count_op HIT_OP ops, i + count_op INS_OP ops, s + count_op SUBST_OP ops, d + count_op DEL_OP ops)%nat).
  { unfold count_op. induction ops as [|o ops IH]; intros h i s d; simpl; [rewrite !Nat.add_0_r; reflexivity|].
    destruct o; simpl; rewrite IH; rewrite ?Nat.add_succ_r; reflexivity. }
  apply (G 0 0 0 0)%nat.
Qed.

Lemma script_counts : forall ops x y c, script ops x y c ->
  length x = (count_op HIT_OP ops + count_op SUBST_OP ops + count_op DEL_OP ops)%nat /\
  length y = (count_op HIT_OP ops + count_op SUBST_OP ops + count_op INS_OP ops)%nat.
Proof. intros ops x y c H. unfold count_op. induction H; simpl; lia. Qed.

Theorem ed_ops : forall x y, exists ops, calculateEditDistOps x y =
    Some (calculateEditDist x y, (count_op HIT_OP ops, count_op INS_OP ops, count_op SUBST_OP ops, count_op DEL_OP ops)) /\
  script ops x y (calculateEditDist x y) /\
  length x = (count_op HIT_OP ops + count_op SUBST_OP ops + count_op DEL_OP ops)%nat /\
  length y = (count_op HIT_OP ops + count_op SUBST_OP ops + count_op INS_OP ops)%nat.
Proof.
  intros x y. unfold EditDistModel.calculateEditDistOps.
  destruct (trace_ok _ _ x y (ed_matrix x y) (ed_rec x y) (fun _ _ => eq_refl) (fun _ _ => eq_refl)
      (S (length x + length y)) (length x) (length y) []) as (ops & T & H); try lia.
  rewrite !firstn_all in H. unfold ed_cell. rewrite T, app_nil_r, count_ops_spec. exists ops.
  split; [reflexivity|]. split; [exact H|]. eapply script_counts; eauto.
Qed.

Lemma pref_rec : forall u x y i j, (i <= length x)%nat -> (j <= length y)%nat ->
  pref_matrix u x y i j = c_score (cell_gen eqb hitc subc insc delc d0 (pref_dcost delc u (length y))
     (fun j a => if pref_dcost delc u (length y) j a =? 0 then PREF_DEL_OP else DEL_OP) x y (pref_matrix u x y) i j).
Proof. intros u x y i j Hi Hj. unfold EditDistModel.pref_matrix. apply fill_ok; [apply cell_gen_causal|lia|lia]. Qed.

Lemma cheapest_ex : forall x y, exists d, cheapest x y d.
Proof. intros x y. exists (calculateEditDist x y). apply ed_cheapest. Qed.

Hypothesis DEL0 : forall a, 0 <= delc a.

Lemma pref_dcost_last : forall y a, pref_dcost delc true (length (A:=A) y) (length y) a = 0.
Proof. intros. unfold pref_dcost. now rewrite Nat.eqb_refl. Qed.
Lemma pref_dcost_other : forall (y : list A) j a, j <> length y -> pref_dcost delc true (length y) j a = delc a.
Proof. intros. unfold pref_dcost. destruct (Nat.eqb_spec j (length y)); [contradiction|auto]. Qed.

Theorem pref_cheapest : forall x y, y <> [] -> cheapest_prefix x y (pref_matrix true x y (length x) (length y)).
Proof.
  intros x y NE. set (F := pref_matrix true x y).
  assert (Hy : (0 < length y)%nat) by (destruct y; [congruence|simpl; lia]).
  assert (R : forall i j, (i <= length x)%nat -> (j <= length y)%nat -> F i j = _) by exact (pref_rec true x y).
  assert (LB : forall x' r ops c, x = x' ++ r -> script ops x' y c -> F (length x) (length y) <= c).
  { intros x' r ops c E H.
    assert (L1 : F (length x') (length y) <= c).
    { pose proof (lower _ _ x y F R) as L. specialize (L ltac:(intros j a; unfold pref_dcost; destruct (_ && _)%bool; [apply DEL0|lia])).
      specialize (L ops x' y c H [] [] r []). rewrite !app_nil_r in L. cbn [app length plus] in L. specialize (L E eq_refl).
      rewrite (F00 _ _ x y F R) in L. lia. }
    pose proof (free_tail _ _ x y F R Hy (pref_dcost_last y) (length x') (length r)) as L2.
    rewrite E in *. rewrite app_length in *. specialize (L2 (le_n _)). lia. }
  destruct (pref_value_ok _ _ x y F R) with (n := (length x + length y)%nat) (i := length x) (j := length y) as (ops & i' & Li & _ & H); try lia.
  { intros j a Hj. apply pref_dcost_other. lia. }
  { intros a. apply pref_dcost_last. }
  rewrite firstn_all in H.
  split.
  - exists (firstn i' x), (skipn i' x). split; [symmetry; apply firstn_skipn|]. split; [eauto|].
    intros o c Ho. apply (LB (firstn i' x) (skipn i' x) o c); auto. symmetry; apply firstn_skipn.
  - intros x' r c E [[o Ho] _]. eapply LB; eauto.
Qed.

(** the reported operations edit a prefix of x into y at exactly the returned cost *)
Theorem pref_ops : (forall a, 0 < delc a) -> forall x y, y <> [] ->
  exists ops x' r, calculateEditDistPrefixOps true x y = Some (pref_matrix true x y (length x) (length y), ops) /\
    x = x' ++ r /\ script ops x' y (pref_matrix true x y (length x) (length y)).
Proof.
  intros DP x y NE. unfold EditDistModel.calculateEditDistPrefixOps. unfold ed_cell_pref.
  destruct (trace_pref_ok _ _ x y (pref_matrix true x y) (pref_rec true x y)) with (fuel := S (length x + length y)) (i := length x) (j := length y) (acc := @nil eop)
    as (ops & i' & T & L & _ & H); try lia.
  - intros j a Hj. rewrite pref_dcost_other by lia. split; auto. specialize (DP a). destruct (Z.eqb_spec (delc a) 0); auto; lia.
  - intros a. rewrite pref_dcost_last. auto.
  - rewrite T, app_nil_r. exists (filter not_pref_del ops), (firstn i' x), (skipn i' x). split; [reflexivity|].
    split; [symmetry; apply firstn_skipn|]. rewrite firstn_all in H. auto.
Qed.

(** without the prefix operation it is the plain distance *)
Theorem nopref_plain : forall x y, cheapest x y (pref_matrix false x y (length x) (length y)).
Proof.
  intros x y. set (F := pref_matrix false x y).
  assert (R : forall i j, (i <= length x)%nat -> (j <= length y)%nat -> F i j =
     c_score (cell_gen eqb hitc subc insc delc d0 (fun _ => delc) (fun j a => if delc a =? 0 then PREF_DEL_OP else DEL_OP) x y F i j)) by exact (pref_rec false x y).
  assert (R' : forall i j, (i <= length x)%nat -> (j <= length y)%nat -> F i j =
     c_score (cell_gen eqb hitc subc insc delc d0 (fun _ => delc) (fun j a => DEL_OP) x y F i j)).
  { intros i j Hi Hj. rewrite R by auto. apply cell_dop. }
  split.
  - destruct (trace_ok _ _ x y F R' (fun _ _ => eq_refl) (fun _ _ => eq_refl)
      (S (length x + length y)) (length x) (length y) []) as (ops & _ & H); try lia.
    rewrite !firstn_all in H. eauto.
  - intros ops c H.
    pose proof (lower _ _ x y F R' (fun _ _ => Z.le_refl _) ops x y c H [] [] [] []) as L.
    rewrite !app_nil_r in L. specialize (L eq_refl eq_refl). cbn [length plus] in L. rewrite (F00 _ _ x y F R') in L. lia.
Qed.

(** empty y: all of x is charged *)
Theorem pref_empty : forall x, pref_matrix true x [] (length x) 0%nat = fold_right (fun a s => delc a + s) 0 x.
Proof.
  intros x. set (F := pref_matrix true x []).
  assert (R : forall i j, (i <= length x)%nat -> (j <= 0)%nat -> F i j = _) by exact (pref_rec true x []).
  assert (G : forall i, (i <= length x)%nat -> F i 0%nat = fold_right (fun a s => delc a + s) 0 (firstn i x)).
  { induction i as [|i IH]; intro Hi; rewrite R by lia; cbn [cell_gen c_score]; [reflexivity|].
    change (pref_matrix true x []) with F. rewrite IH by lia. rewrite (firstn_snoc i x) by lia. rewrite fold_right_app. cbn [fold_right].
    generalize (nth i x d0) as z. intro z. clear.
    induction (firstn i x) as [|b l IHl]; cbn [fold_right]; lia. }
  rewrite G by lia. now rewrite firstn_all.
Qed.

Theorem pref_ops_full : (forall a, 0 < delc a) -> forall x y, y <> [] ->
  exists d ops x' r, calculateEditDistPrefixOps true x y = Some (d, ops) /\ x = x' ++ r /\ script ops x' y d /\ cheapest_prefix x y d.
Proof.
  intros DP x y NE. destruct (pref_ops DP x y NE) as (ops & x' & r & E1 & E2 & S).
  exists (pref_matrix true x y (length x) (length y)), ops, x', r. repeat split; auto; apply (pref_cheapest x y NE).
Qed.

Theorem pref_empty_full : forall x, pref_matrix true x [] (length x) 0%nat = fold_right (fun a s => delc a + s) 0 x /\ script [] [] [] 0.
Proof. intro x. split; [apply pref_empty|constructor]. Qed.
End EDP.

(** constant costs: the cost of a script is the weighted sum of its operation counts *)
Lemma script_weighted : forall (A : Type) (hc sc ic dc : Z) ops (x y : list A) c,
  script (fun _ _ => hc) (fun _ _ => sc) (fun _ => ic) (fun _ => dc) ops x y c ->
  c = hc * Z.of_nat (count_op HIT_OP ops) + ic * Z.of_nat (count_op INS_OP ops) + sc * Z.of_nat (count_op SUBST_OP ops) + dc * Z.of_nat (count_op DEL_OP ops).
Proof.
  intros A hc sc ic dc ops x y c H. unfold count_op.
  induction H; cbn [count_occ]; repeat match goal with |- context [eop_dec ?a ?b] => destruct (eop_dec a b); try congruence end; lia.
Qed.

Lemma ed_ops_weighted : forall (A : Type) (eqb : A -> A -> bool), (forall a b, eqb a b = true <-> a = b) ->
  forall (hc sc ic dc : Z) (d0 : A) x y, exists h i s d,
  calculateEditDistOps eqb (fun _ _ => hc) (fun _ _ => sc) (fun _ => ic) (fun _ => dc) d0 x y =
    Some (calculateEditDist eqb (fun _ _ => hc) (fun _ _ => sc) (fun _ => ic) (fun _ => dc) d0 x y, (h, i, s, d)) /\
  calculateEditDist eqb (fun _ _ => hc) (fun _ _ => sc) (fun _ => ic) (fun _ => dc) d0 x y =
    hc * Z.of_nat h + ic * Z.of_nat i + sc * Z.of_nat s + dc * Z.of_nat d /\
  (h + s + d = length x)%nat /\ (h + s + i = length y)%nat.
Proof.
  intros A eqb EQ hc sc ic dc d0 x y.
  destruct (ed_ops eqb EQ (fun _ _ => hc) (fun _ _ => sc) (fun _ => ic) (fun _ => dc) d0 x y) as (ops & E & S & L1 & L2).
  do 4 eexists. split; [exact E|]. split; [eapply script_weighted; exact S|]. lia.
Qed.
