(** Proofs about the heuristic table. *)
From Coq Require Import ZArith Arith List Bool Lia Sorted.
From Verif Require Import DecSpec DecModel DecGapProofs DecHypProofs HeurSpec HeurModel.
Import ListNotations.
Open Scope nat_scope.
Lemma vset_get : forall (B : Type) i (x : B) l, i < length l -> exists l', vset i x l = Some l' /\ length l' = length l /\ nth_error l' i = Some x /\ forall j, j <> i -> nth_error l' j = nth_error l j.
Proof.
  intros B i x l. revert i. induction l as [|y l IH]; intros i L; [cbn in L; lia|]. destruct i as [|i]; cbn [vset].
  - exists (x :: l). repeat split; auto. intros [|j] N; [congruence|reflexivity].
  - cbn [length] in L. destruct (IH i) as (l' & E & A & C & D); [lia|]. rewrite E. exists (y :: l'). repeat split; cbn [length nth_error]; auto. intros [|j] N; cbn [nth_error]; [reflexivity|apply D; lia].
Qed.
Definition shape (J : nat) (T : list (list Z)) : Prop := length T = J /\ Forall (fun row => length row = J) T.
Lemma shape_row : forall J T y row, shape J T -> nth_error T y = Some row -> length row = J.
Proof. intros J T y row (_ & F) E. rewrite Forall_forall in F. apply F. eapply nth_error_In; eauto. Qed.
Lemma set2_ok : forall J T y x v, shape J T -> y < J -> x < J -> exists T', set2 T y x v = Some T' /\ shape J T' /\ get2 T' y x = Some v /\ forall y' x', y' <> y \/ x' <> x -> get2 T' y' x' = get2 T y' x'.
Proof.
  intros J T y x v S Y X. unfold set2, get2. destruct (nth_error T y) as [row|] eqn:E; [|apply nth_error_None in E; destruct S; lia].
  pose proof (shape_row _ _ _ _ S E) as LR. destruct (vset_get Z x v row) as (row' & E1 & A1 & B1 & C1); [lia|]. rewrite E1.
  destruct (vset_get _ y row' T) as (T' & E2 & A2 & B2 & C2); [destruct S; lia|]. rewrite E2. exists T'. split; [reflexivity|]. split; [|split].
  - split; [destruct S; lia|]. apply Forall_forall. intros r R. apply In_nth_error in R. destruct R as (k & K). destruct (Nat.eq_dec k y) as [->|N]; [rewrite B2 in K; inversion K; subst; lia|].
    rewrite C2 in K by auto. eapply shape_row; eauto.
  - now rewrite B2.
  - intros y' x' N. destruct (Nat.eq_dec y' y) as [->|NY]; [rewrite B2, E; apply C1; destruct N; [congruence|auto]|now rewrite C2].
Qed.
Lemma total_app : forall pc a b, total pc (a ++ b) = (total pc a + total pc b)%Z.
Proof. intros pc a b. unfold total. induction a as [|x a IH]; cbn [app map fold_right]; [reflexivity|]. rewrite IH. lia. Qed.
Lemma total_in : forall (pc : nat -> nat -> Z) ss s, (forall i j, (pc i j <= 0)%Z) -> In s ss -> (total pc ss <= pc (fst s) (snd s))%Z.
Proof.
  intros pc ss s P0. assert (X : forall l, (total pc l <= 0)%Z) by (unfold total; induction l as [|x l IH]; cbn [map fold_right]; [lia|]; pose proof (P0 (fst x) (snd x)); lia).
  induction ss as [|x ss IH]; intro I; [destruct I|]. unfold total in *. cbn [map fold_right]. destruct I as [->|I]; [pose proof (X ss); lia|]. specialize (IH I). pose proof (P0 (fst x) (snd x)). lia.
Qed.
Lemma tiles_le : forall l r ss, tiles l r ss -> l <= r.
Proof. induction 1; lia. Qed.
Lemma tiles_app : forall l m r a b, tiles l m a -> tiles (m + 1) r b -> tiles l r (a ++ b).
Proof. intros l m r a b H. revert r b. induction H; intros r' b B; cbn [app]; constructor; auto. Qed.
Lemma best_one : forall pc l, best_tiling pc l l (pc l l).
Proof.
  intros pc l. split; [exists [(l, l)]; split; [now constructor|unfold total; cbn; lia]|]. intros ss T. inversion T; subst; [unfold total; cbn; lia|]. apply tiles_le in H0. lia.
Qed.
Lemma best_split : forall pc l r v (b : nat -> nat -> Z), l < r -> (forall m, l <= m < r -> best_tiling pc l m (b l m) /\ best_tiling pc (m + 1) r (b (m + 1) r)) ->
  (pc l r <= v)%Z -> (forall m, l <= m < r -> (b l m + b (m + 1)%nat r <= v)%Z) -> (v = pc l r \/ exists m, l <= m < r /\ v = (b l m + b (m + 1)%nat r)%Z) -> best_tiling pc l r v.
Proof.
  intros pc l r v b L B V1 V2 V3. split.
  - destruct V3 as [->|(m & M & ->)]; [exists [(l, r)]; split; [constructor; lia|unfold total; cbn; lia]|].
    destruct (B m M) as (((s1 & T1 & E1) & _) & ((s2 & T2 & E2) & _)). exists (s1 ++ s2). split; [eapply tiles_app; eauto|]. rewrite total_app. lia.
  - intros ss T. inversion T; subst; [unfold total; cbn; lia|]. pose proof (tiles_le _ _ _ H0) as LE. assert (M : l <= m < r) by lia. specialize (V2 m M). destruct (B m M) as ((_ & U1) & (_ & U2)).
    specialize (U2 _ H0). specialize (U1 [(l, m)] (tiles_one _ _ H)). unfold total in *. cbn [map fold_right fst snd] in *. lia.
Qed.
Section T.
Variables (J A : nat) (nbest : nat -> nat -> list (list nat)) (sc : nat -> nat -> list nat -> Z) (unk NEG : Z).
Notation pc := (segment_value A nbest sc unk NEG).
Notation cell := (cell J A nbest sc unk NEG).
Lemma best_fold : forall l r ts b, fold_left (fun b t => if (b <? sc l r t)%Z then sc l r t else b) ts b = Z.max b (fold_right Z.max b (map (sc l r) ts)).
Proof.
  intros l r. assert (M : forall ts b c, (b <= c)%Z -> Z.max c (fold_right Z.max b ts) = Z.max c (fold_right Z.max c ts)). { induction ts as [|t ts IH]; intros b c L; cbn [fold_right]; [lia|]. specialize (IH b c L). lia. }
  induction ts as [|t ts IH]; intro b; cbn [fold_left map fold_right]; [lia|]. rewrite IH. destruct (Z.ltb_spec b (sc l r t)).
  - rewrite <- (M _ b (sc l r t)) by lia. lia.
  - lia.
Qed.
Lemma fold_max_ge : forall ts b, (b <= fold_right Z.max b ts)%Z.
Proof. induction ts; intro b; cbn [fold_right]; [lia|]. specialize (IHts b). lia. Qed.
Lemma z_ok : forall y x zs T v (p q : nat -> Z), shape J T -> y < J -> x < J -> (forall z, In z zs -> z < y /\ usub (usub J 2) z < x /\ get2 T z x = Some (p z) /\ get2 T y (usub (usub J 2) z) = Some (q z)) -> get2 T y x = Some v ->
  exists T' v', z_loop J T y x zs = Some T' /\ shape J T' /\ get2 T' y x = Some v' /\ (forall y' x', y' <> y \/ x' <> x -> get2 T' y' x' = get2 T y' x') /\
    (v <= v')%Z /\ (forall z, In z zs -> (p z + q z <= v')%Z) /\ (v' = v \/ exists z, In z zs /\ v' = (p z + q z)%Z).
Proof.
  intros y x. induction zs as [|z zs IH]; intros T v p q S Y X K V; cbn [z_loop].
  - exists T, v. repeat split; auto; try lia. apply S. apply S. intros z [].
  - destruct (K z (or_introl eq_refl)) as (K1 & K2 & K3 & K4). rewrite K3, K4, V. destruct (Z.ltb_spec v (p z + q z)).
    + destruct (set2_ok J T y x (p z + q z) S Y X) as (T1 & E & S1 & G1 & O1). rewrite E.
      destruct (IH T1 (p z + q z)%Z p q S1 Y X) as (T' & v' & E' & S' & G' & O' & L' & A' & B').
      { intros z' I. destruct (K z' (or_intror I)) as (Q1 & Q2 & Q3 & Q4). rewrite !O1 by lia. auto. } { exact G1. }
      exists T', v'. split; [exact E'|]. split; [auto|]. split; [auto|]. split; [intros y' x' N; rewrite O' by auto; apply O1, N|]. split; [lia|]. split; [intros z' [<-|I]; [lia|auto]|].
      right. destruct B' as [->|(z' & I & ->)]; [exists z; split; [now left|auto]|exists z'; split; [now right|auto]].
    + destruct (IH T v p q S Y X) as (T' & v' & E' & S' & G' & O' & L' & A' & B'); [intros z' I; apply K; now right|auto|].
      exists T', v'. repeat split; auto; try apply S'. intros z' [<-|I]; [lia|auto]. destruct B' as [->|(z' & I & ->)]; [now left|right; exists z'; split; [now right|auto]].
Qed.
Definition done (y x : nat) (y' x' : nat) : Prop := x' < J /\ y' < J /\ J <= y' + x' + 1 /\ (y' < y \/ y' = y /\ x' < x).
Definition filled (T : list (list Z)) (y x : nat) : Prop := shape J T /\ forall y' x', done y x y' x' -> exists v, get2 T y' x' = Some v /\ best_tiling pc (J - x') (y' + 1) v.
Lemma node_value : forall l r, l <= r -> let ts := if A <? (r - l) + 1 then [] else nbest l r in
  (if negb (length ts =? 0) then fold_left (fun b t => if (b <? sc l r t)%Z then sc l r t else b) ts NEG else if l =? r then unk else NEG) = pc l r.
Proof.
  intros l r L ts. unfold segment_value. fold ts. destruct ts as [|t ts']; [reflexivity|]. cbn [length Nat.eqb negb]. rewrite best_fold. pose proof (fold_max_ge (map (sc l r) (t :: ts')) NEG). lia.
Qed.
Lemma cell_ok : forall T y x, filled T y x -> y < J -> x < J -> J <= y + x + 1 -> exists T', cell T y x = Some T' /\ filled T' y (S x).
Proof.
  intros T y x (S & F) Y X XY. unfold HeurModel.cell. rewrite (usub_ok J x), (usub_ok J y) by lia. rewrite (usub_ok (y + 1) (J - x)), (usub_ok (J - y) 1), (usub_ok (J - x) 1) by lia.
  set (l := J - x). set (r := y + 1). assert (LR : l <= r) by lia. pose proof (node_value l r LR) as NV. cbv zeta in NV. set (ts := if A <? r - l + 1 then [] else nbest l r) in *.
  destruct (Nat.eqb_spec x (J - y - 1)) as [E|E].
  - assert (LQ : l = r) by lia. rewrite (proj2 (Nat.eqb_eq l r) LQ) in NV. rewrite NV. destruct (set2_ok J T y x (pc l r) S Y X) as (T1 & E1 & S1 & G1 & O1). rewrite E1. exists T1. split; [reflexivity|]. split; [auto|].
    intros y' x' (D1 & D2 & D3 & D4). destruct (Nat.eq_dec y' y) as [->|NY].
    + assert (x' = x) by lia. subst x'. exists (pc l r). split; [auto|]. fold l r. rewrite LQ. apply best_one.
    + rewrite O1 by auto. apply F. repeat split; auto. lia.
  - assert (LQ : l <> r) by lia. rewrite (proj2 (Nat.eqb_neq l r) LQ) in NV. rewrite NV. destruct (set2_ok J T y x (pc l r) S Y X) as (T1 & E1 & S1 & G1 & O1). rewrite E1.
    assert (F1 : forall y' x', done y x y' x' -> exists v, get2 T1 y' x' = Some v /\ best_tiling pc (J - x') (y' + 1) v) by (intros y' x' D; rewrite O1; [apply F, D|destruct D as (_ & _ & _ & D); lia]).
    set (g := fun l r => match get2 T1 (r - 1) (J - l) with Some v => v | None => 0%Z end).
    assert (GG : forall l' r', 1 <= l' <= r' -> r' <= J -> r' < r \/ (r' = r /\ l < l') -> get2 T1 (r' - 1) (J - l') = Some (g l' r') /\ best_tiling pc l' r' (g l' r')).
    { intros l' r' R1 R2 R3. destruct (F1 (r' - 1) (J - l')) as (v & E2 & B2); [repeat split; lia|]. unfold g. rewrite E2. split; [auto|]. replace (J - (J - l')) with l' in B2 by lia. replace (r' - 1 + 1) with r' in B2 by lia. exact B2. }
    destruct (z_ok y x (seq (l - 1) (y - (l - 1))) T1 (pc l r) (fun z => g l (z + 1)) (fun z => g (z + 2) r) S1 Y X) as (T2 & v2 & E2 & S2 & G2 & O2 & L2 & A2 & B2); [|exact G1|].
    + intros z Z. apply in_seq in Z. rewrite (usub_ok J 2), (usub_ok (J - 2) z) by lia. split; [lia|]. split; [lia|]. split.
      * destruct (GG l (z + 1)) as (Q & _); [lia|lia|lia|]. replace (z + 1 - 1) with z in Q by lia. replace (J - l) with x in Q by lia. exact Q.
      * destruct (GG (z + 2) r) as (Q & _); [lia|lia|lia|]. replace (r - 1) with y in Q by lia. replace (J - (z + 2)) with (J - 2 - z) in Q by lia. exact Q.
    + exists T2. split; [exact E2|]. split; [auto|]. intros y' x' (D1 & D2 & D3 & D4).
      assert (C : (y' = y /\ x' = x) \/ done y x y' x') by (unfold done; lia). destruct C as [(-> & ->)|D].
      * exists v2. split; [auto|]. fold l r. apply (best_split pc l r v2 g); [lia| |auto| |].
        -- intros m M. split; [apply GG; lia|]. apply GG; lia.
        -- intros m M. specialize (A2 (m - 1)). cbn beta in A2. replace (m - 1 + 1) with m in A2 by lia. replace (m - 1 + 2) with (m + 1) in A2 by lia. apply A2. apply in_seq. lia.
        -- destruct B2 as [->|(z & I & ->)]; [now left|]. apply in_seq in I. right. exists (z + 1). split; [lia|]. now replace (z + 1 + 1) with (z + 2) by lia.
      * rewrite O2; [apply F1, D|]. destruct D as (_ & _ & _ & D). lia.
Qed.
Lemma x_ok : forall k x y T, filled T y x -> y < J -> J <= y + x + 1 -> x + k <= J -> exists T', x_loop J A nbest sc unk NEG T y (seq x k) = Some T' /\ filled T' y (x + k).
Proof.
  induction k as [|k IH]; intros x y T F Y XY L; cbn [seq x_loop].
  - exists T. now rewrite Nat.add_0_r.
  - destruct (cell_ok T y x F Y) as (T1 & E & F1); [lia|auto|]. rewrite E. destruct (IH (S x) y T1 F1 Y) as (T2 & E2 & F2); [lia|lia|]. exists T2. split; [exact E2|]. replace (x + S k) with (S x + k) by lia. exact F2.
Qed.
Lemma filled_weak : forall T y x y2 x2, filled T y x -> (forall y' x', done y2 x2 y' x' -> done y x y' x') -> filled T y2 x2.
Proof. intros T y x y2 x2 (S & F) D. split; auto. Qed.
Lemma y_ok : forall k y T, filled T y 0 -> y + k <= J -> exists T', y_loop J A nbest sc unk NEG T (seq y k) = Some T' /\ filled T' (y + k) 0.
Proof.
  induction k as [|k IH]; intros y T F L; cbn [seq y_loop]; [exists T; now rewrite Nat.add_0_r|]. rewrite (usub_ok J y), (usub_ok (J - y) 1) by lia.
  destruct (x_ok (J - (J - y - 1)) (J - y - 1) y T) as (T1 & E & F1); [|lia|lia|lia|].
  - eapply filled_weak; [exact F|]. unfold done. intros. lia.
  - rewrite E. destruct (IH (S y) T1) as (T2 & E2 & F2); [|lia|].
    + eapply filled_weak; [exact F1|]. unfold done. intros. lia.
    + exists T2. split; [exact E2|]. now replace (y + S k) with (S y + k) by lia.
Qed.
Theorem table_ok : exists T, initHeuristicLocalt J A nbest sc unk NEG = Some T /\ forall l r, 1 <= l <= r -> r <= J -> exists v, get2 T (r - 1) (J - l) = Some v /\ best_tiling pc l r v.
Proof.
  unfold initHeuristicLocalt. destruct (y_ok J 0 (repeat (repeat NEG J) J)) as (T & E & (S & F)); [|lia|].
  - split; [split; [apply repeat_length|]|]. { apply Forall_forall. intros row R. apply repeat_spec in R. subst. apply repeat_length. } unfold done. intros. lia.
  - exists T. split; [exact E|]. intros l r L R. destruct (F (r - 1) (J - l)) as (v & G & B); [unfold done; lia|]. exists v. split; [auto|].
    replace (J - (J - l)) with l in B by lia. replace (r - 1 + 1) with r in B by lia. exact B.
Qed.
End T.
