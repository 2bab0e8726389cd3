From Coq Require Import Reals NArith Arith List Bool Sorted Permutation Lra Lia.
From Verif Require Import AMap LogNum LogNumProofs RSums Ibm1TrainProofs Ibm2Model MrModel MrSpec.
Import ListNotations.
Open Scope R_scope.
Section PF.
Context {K1 K2 : Type}.
Variable lt1 : K1 -> K1 -> bool.
Variable lt2 : K2 -> K2 -> bool.
Variable d1 : forall a b : K1, {a = b} + {a <> b}.
Variable d2 : forall a b : K2, {a = b} + {a <> b}.
Hypothesis O1 : total_order lt1.
Hypothesis O2 : total_order lt2.
Notation record := (rec K1 K2).
Notation entry := (entry K1 K2).
Definition klt (a b : record) : Prop := lt1 (rs a) (rs b) = true \/ (rs a = rs b /\ lt2 (rt a) (rt b) = true).
Definition keq (a b : record) : Prop := rs a = rs b /\ rt a = rt b.
Lemma asym1 : forall a b, lt1 a b = true -> lt1 b a = false.
Proof. destruct O1 as (I1 & T1 & _). intros a b H. destruct (lt1 b a) eqn:E; [|reflexivity]. pose proof (T1 _ _ _ H E). rewrite I1 in *. discriminate. Qed.
Lemma asym2 : forall a b, lt2 a b = true -> lt2 b a = false.
Proof. destruct O2 as (I1 & T1 & _). intros a b H. destruct (lt2 b a) eqn:E; [|reflexivity]. pose proof (T1 _ _ _ H E). rewrite I1 in *. discriminate. Qed.
Lemma after_false : forall a b, after lt1 lt2 a b = false <-> klt a b \/ keq a b.
Proof.
  destruct O1 as (I1 & T1 & E1). destruct O2 as (I2 & T2 & E2). intros a b. unfold after, klt, keq.
  destruct (lt1 (rs b) (rs a)) eqn:A.
  - split; [discriminate|]. intros [[H|[H _]]|[H _]]; [pose proof (asym1 _ _ A); congruence|rewrite H, I1 in A; discriminate..].
  - destruct (lt1 (rs a) (rs b)) eqn:B; [tauto|]. pose proof (E1 _ _ B A) as E. rewrite E in *.
    destruct (lt2 (rt b) (rt a)) eqn:C.
    + split; [discriminate|]. intros [[H|[_ H]]|[_ H]]; [congruence|pose proof (asym2 _ _ C); congruence|rewrite H, I2 in C; discriminate].
    + destruct (lt2 (rt a) (rt b)) eqn:F; [tauto|]. pose proof (E2 _ _ F C). tauto.
Qed.
Lemma klt_trans : forall a b c, klt a b -> klt b c -> klt a c.
Proof.
  destruct O1 as (I1 & T1 & E1). destruct O2 as (I2 & T2 & E2). intros a b c [A|[A A']] [B|[B B']]; unfold klt.
  - left. eauto. - left. congruence. - left. congruence. - right. split; [congruence|eauto].
Qed.
Lemma klt_irr : forall a b, klt a b -> ~ keq a b.
Proof. destruct O1 as (I1 & _). destruct O2 as (I2 & _). intros a b [A|[A B]] [C D]; [rewrite C, I1 in A|rewrite D, I2 in B]; discriminate. Qed.
Lemma after_trans : forall a b c, after lt1 lt2 a b = false -> after lt1 lt2 b c = false -> after lt1 lt2 a c = false.
Proof.
  intros a b c A B. apply after_false in A, B. apply after_false. destruct A as [A|[A A']], B as [B|[B B']].
  - left. eapply klt_trans; eauto.
  - left. unfold klt in *. rewrite B, B' in A. exact A.
  - left. unfold klt in *. rewrite A, A'. exact B.
  - right. split; congruence.
Qed.
(** ---- the queue *)
Definition byid (i : nat) (q : list entry) : list record := map er (filter (fun e => Nat.eqb (eid e) i) q).
Definition pend (q : list entry) (fs : list (list record)) (i : nat) : list record := byid i q ++ nth i fs [].
Record qinv (n : nat) (q : list entry) (fs : list (list record)) : Prop := {
  q_len : length fs = n; q_nd : NoDup (map eid q); q_ids : forall e, In e q -> (eid e < n)%nat;
  q_has : forall i, nth i fs [] <> [] -> In i (map eid q) }.
Lemma byid_app : forall i a b, byid i (a ++ b) = byid i a ++ byid i b.
Proof. intros. unfold byid. now rewrite filter_app, map_app. Qed.
Lemma byid_none : forall i q, ~ In i (map eid q) -> byid i q = [].
Proof. intros i q. unfold byid. induction q as [|e q IH]; intros H; [reflexivity|]. cbn in *. destruct (Nat.eqb_spec (eid e) i); [tauto|]. apply IH. tauto. Qed.
Lemma nth_upd : forall fs i f j, (i < length fs)%nat -> nth j (upd_file i f fs) (@nil record) = if Nat.eqb j i then f else nth j fs [].
Proof.
  intros fs. induction fs as [|x fs IH]; intros i f j H; cbn in H; [lia|]. destruct i; cbn; [destruct j; reflexivity|]. destruct j; [reflexivity|].
  cbn. apply IH. lia.
Qed.
Lemma upd_length : forall fs i (f : list record), (i < length fs)%nat -> length (upd_file i f fs) = length fs.
Proof. intros fs. induction fs as [|x fs IH]; intros i f H; cbn in H; [lia|]. destruct i; cbn; [reflexivity|]. f_equal. apply IH. lia. Qed.
Lemma push_ok : forall n q1 e q2 fs, qinv n (q1 ++ e :: q2) fs -> let p := push_next (eid e) (q1 ++ q2) fs in
  qinv n (fst p) (snd p) /\ forall i, pend (q1 ++ e :: q2) fs i = (if Nat.eqb (eid e) i then [er e] else []) ++ pend (fst p) (snd p) i.
Proof.
  intros n q1 e q2 fs [L ND ID HS]. rewrite map_app in ND. cbn in ND. pose proof (NoDup_remove_1 _ _ _ ND) as ND1. pose proof (NoDup_remove_2 _ _ _ ND) as ND2. rewrite <- map_app in ND1, ND2.
  assert (Ei : (eid e < n)%nat) by (apply ID, in_or_app; right; left; reflexivity).
  assert (By : forall i, byid i (q1 ++ e :: q2) = (if Nat.eqb (eid e) i then [er e] else []) ++ byid i (q1 ++ q2)).
  { intros i. rewrite !byid_app. unfold byid at 2. cbn. destruct (Nat.eqb_spec (eid e) i) as [<-|N]; [|reflexivity]. cbn. fold (byid (eid e) q2).
    rewrite map_app in ND2. rewrite (byid_none _ q1), (byid_none _ q2) by (intros X; apply ND2, in_or_app; tauto). reflexivity. }
  assert (ID' : forall x, In x (q1 ++ q2) -> (eid x < n)%nat) by (intros x Hx; apply ID; apply in_app_or in Hx; apply in_or_app; cbn; tauto).
  assert (HS' : forall i, i <> eid e -> nth i fs [] <> [] -> In i (map eid (q1 ++ q2))).
  { intros i N X. apply HS in X. rewrite map_app in *. cbn in X. apply in_app_or in X. apply in_or_app. destruct X as [X|[X|X]]; [tauto|congruence|tauto]. }
  unfold push_next, read_rec. destruct (nth (eid e) fs []) as [|r f] eqn:E; cbn [fst snd].
  - split; [constructor; auto|].
    + intros i X. apply HS'; [|exact X]. intros ->. congruence.
    + intros i. unfold pend. rewrite By. now rewrite <- app_assoc.
  - split; [constructor|].
    + rewrite upd_length; congruence.
    + cbn. constructor; assumption.
    + intros x [<-|X]; [exact Ei|apply ID', X].
    + intros i X. rewrite nth_upd in X by congruence. cbn. destruct (Nat.eqb_spec i (eid e)); [left; congruence|right; apply HS'; assumption].
    + intros i. unfold pend. rewrite By, nth_upd by congruence. unfold byid at 2. cbn. rewrite (Nat.eqb_sym i). destruct (Nat.eqb_spec (eid e) i) as [<-|N]; cbn.
      * fold (byid (eid e) (q1 ++ q2)). rewrite byid_none by exact ND2. cbn. rewrite E. reflexivity.
      * fold (byid i (q1 ++ q2)). reflexivity.
Qed.
Lemma drain_pend : forall q fs L, drain lt1 lt2 q fs L -> forall n, qinv n q fs -> (forall i, byid i L = pend q fs i) /\ forall e, In e L -> (eid e < n)%nat.
Proof.
  intros q fs L H. induction H as [fs|q1 e q2 fs L T H IH]; intros n Q.
  - split; [|intros e []]. intros i. unfold pend. cbn. destruct (nth i fs []) eqn:E; [reflexivity|]. exfalso. apply (q_has _ _ _ Q i). congruence.
  - destruct (push_ok _ _ _ _ _ Q) as [Q' P]. destruct (IH n Q') as [A B]. split.
    + intros i. rewrite P, <- A. unfold byid. cbn. destruct (Nat.eqb (eid e) i); reflexivity.
    + intros x [<-|X]; [|apply B, X]. apply (q_ids _ _ _ Q), in_or_app. right; left; reflexivity.
Qed.
Lemma in_byid : forall e L, In e L -> In (er e) (byid (eid e) L).
Proof. intros e L H. unfold byid. apply in_map, filter_In. split; [exact H|apply Nat.eqb_refl]. Qed.
Lemma byid_in : forall r i L, In r (byid i L) -> exists e, In e L /\ er e = r /\ eid e = i.
Proof. intros r i L H. unfold byid in H. apply in_map_iff in H as (e & <- & H). apply filter_In in H as [H E]. apply Nat.eqb_eq in E. eauto. Qed.
Definition lefile (f : list record) : Prop := StronglySorted (fun a b => after lt1 lt2 a b = false) f.
Lemma after_refl : forall a, after lt1 lt2 a a = false.
Proof. intros a. apply after_false. right. split; reflexivity. Qed.
Lemma drain_sorted : forall q fs L, drain lt1 lt2 q fs L -> forall n, qinv n q fs -> (forall i, lefile (pend q fs i)) -> StronglySorted (fun a b => after lt1 lt2 (er a) (er b) = false) L.
Proof.
  intros q fs L H. induction H as [fs|q1 e q2 fs L T H IH]; intros n Q S1; [constructor|].
  destruct (push_ok _ _ _ _ _ Q) as [Q' P]. constructor.
  - apply (IH n Q'). intros i. specialize (S1 i). rewrite P in S1. destruct (Nat.eqb _ _); [inversion S1; assumption|exact S1].
  - rewrite Forall_forall. intros x Hx. destruct (drain_pend _ _ _ H n Q') as [A _]. pose proof (in_byid _ _ Hx) as B. rewrite A in B.
    assert (B' : In (er x) (pend (q1 ++ e :: q2) fs (eid x))) by (rewrite P; apply in_or_app; right; exact B).
    assert (In (eid x) (map eid (q1 ++ e :: q2))) as I1.
    { destruct (in_dec Nat.eq_dec (eid x) (map eid (q1 ++ e :: q2))) as [I|N]; [exact I|]. unfold pend in B'. rewrite byid_none in B' by exact N. apply (q_has _ _ _ Q). destruct (nth (eid x) fs []); [destruct B'|discriminate]. }
    apply in_map_iff in I1 as (y & Ey & Iy). specialize (S1 (eid x)).
    pose proof (in_byid _ _ Iy) as C. rewrite Ey in C.
    assert (D : after lt1 lt2 (er e) (er y) = false) by (apply T, Iy).
    apply in_split in Iy as (l1 & l2 & El). pose proof (q_nd _ _ _ Q) as ND. unfold pend in S1, B'. rewrite El in S1, B', ND. rewrite map_app in ND. cbn in ND. apply NoDup_remove_2 in ND. rewrite <- map_app, Ey in ND.
    assert (E1 : byid (eid x) (l1 ++ y :: l2) = [er y]).
    { rewrite byid_app. unfold byid at 2. cbn. rewrite Ey, Nat.eqb_refl. cbn. fold (byid (eid x) l2). rewrite map_app in ND. rewrite !byid_none by (intros X; apply ND, in_or_app; tauto). reflexivity. }
    rewrite E1 in S1, B'. cbn in S1, B'. destruct B' as [<-|B']; [exact D|]. eapply after_trans; [exact D|]. inversion S1 as [|? ? ? F]; subst. rewrite Forall_forall in F. apply F, B'.
Qed.
Lemma top_ex : forall q : list entry, q <> [] -> exists e, is_top lt1 lt2 e q.
Proof.
  induction q as [|x q IH]; [congruence|]. intros _. destruct q as [|y q]; [exists x; split; [left; reflexivity|]; intros z [<-|[]]; apply after_refl|].
  destruct IH as (e & I & T); [discriminate|]. destruct (after lt1 lt2 (er e) (er x)) eqn:A.
  - exists x. split; [left; reflexivity|]. assert (B : after lt1 lt2 (er x) (er e) = false).
    { destruct (after lt1 lt2 (er x) (er e)) eqn:B; [|reflexivity]. exfalso. assert (C : klt (er x) (er e)) by (unfold after in A; unfold klt; destruct (lt1 (rs (er x)) (rs (er e))) eqn:A1; [tauto|]; destruct (lt1 (rs (er e)) (rs (er x))) eqn:A2; [discriminate|]; right; split; [apply (proj2 (proj2 O1)); assumption|]; destruct (lt2 (rt (er x)) (rt (er e))); [reflexivity|destruct (lt2 (rt (er e)) (rt (er x))); discriminate]).
      assert (after lt1 lt2 (er x) (er e) = false) by (apply after_false; left; exact C). congruence. }
    intros z [<-|Z]; [apply after_refl|]. eapply after_trans; [exact B|apply T, Z].
  - exists e. split; [right; exact I|]. intros z [<-|Z]; [exact A|apply T, Z].
Qed.
Lemma drain_ex : forall k n q fs, qinv n q fs -> (length q + length (concat fs) <= k)%nat -> exists L, drain lt1 lt2 q fs L.
Proof.
  intros k. induction k as [|k IH]; intros n q fs Q H.
  - destruct q; [|cbn in H; lia]. exists []. constructor.
  - destruct q as [|x q]; [exists []; constructor|]. destruct (top_ex (x :: q)) as (e & T); [discriminate|]. destruct (in_split e (x :: q) (proj1 T)) as (q1 & q2 & E). rewrite E in *.
    destruct (push_ok _ _ _ _ _ Q) as [Q' _]. destruct (IH n _ _ Q') as [L D]; [|exists (e :: L); constructor; assumption].
    rewrite app_length in H. cbn in H. unfold push_next, read_rec. pose proof (q_len _ _ _ Q) as Ln. assert (Ei : (eid e < length fs)%nat) by (rewrite Ln; apply (q_ids _ _ _ Q), in_or_app; right; left; reflexivity).
    destruct (nth (eid e) fs []) as [|r f] eqn:N; cbn [fst snd]; [rewrite app_length; lia|]. cbn. rewrite app_length.
    assert (C : forall (fs : list (list record)) i, (i < length fs)%nat -> nth i fs [] = r :: f -> S (length (concat (upd_file i f fs))) = length (concat fs)).
    { clear. intros fs. induction fs as [|y fs IH]; intros i Hi E; cbn in Hi; [lia|]. unfold upd_file. destruct i; cbn [firstn skipn app concat nth] in *; [rewrite E, !app_length; reflexivity|].
      rewrite !app_length, <- Nat.add_succ_r. f_equal. apply IH; [lia|exact E]. }
    specialize (C _ _ Ei N). lia.
Qed.
Lemma init_ok : forall fs k, (k <= length fs)%nat -> let p := fold_left init_step (seq 0 k) ([], fs) in
  length (snd p) = length fs /\ NoDup (map eid (fst p)) /\ (forall e, In e (fst p) -> (eid e < k)%nat) /\ (forall i, (i < k)%nat -> nth i (snd p) [] <> [] -> In i (map eid (fst p))) /\
  (forall i, (k <= i)%nat -> nth i (snd p) [] = nth i fs []) /\ (forall i, pend (fst p) (snd p) i = nth i fs []).
Proof.
  intros fs k. induction k as [|k IH]; intros H.
  - cbn. split; [reflexivity|]. split; [constructor|]. split; [intros e []|]. split; [intros; lia|]. split; intros; reflexivity.
  - destruct IH as (A & B & C & D & E & F); [lia|]. rewrite seq_S, fold_left_app. cbn [fold_left plus]. cbv zeta. set (p := fold_left init_step (seq 0 k) ([], fs)) in *. unfold init_step, read_rec.
    assert (Nk : ~ In k (map eid (fst p))) by (intros X; apply in_map_iff in X as (e & X1 & X2); apply C in X2; lia).
    destruct (nth k (snd p) []) as [|r f] eqn:N; cbn [fst snd].
    + split; [exact A|]. split; [exact B|]. split; [intros e X; apply C in X; lia|]. split; [intros i Hi X|split; [intros i Hi; apply E; lia|exact F]].
      destruct (Nat.eq_dec i k) as [->|N']; [congruence|apply D; [lia|exact X]].
    + assert (Lk : (k < length (snd p))%nat) by (rewrite A; lia). split; [rewrite upd_length by exact Lk; exact A|]. split; [cbn; constructor; assumption|]. split; [intros e [<-|X]; [cbn; lia|apply C in X; lia]|].
      split; [|split].
      * intros i Hi X. rewrite nth_upd in X by exact Lk. cbn. destruct (Nat.eqb_spec i k) as [->|N']; [tauto|right; apply D; [lia|exact X]].
      * intros i Hi. rewrite nth_upd by exact Lk. destruct (Nat.eqb_spec i k); [lia|apply E; lia].
      * intros i. rewrite <- F. unfold pend. rewrite nth_upd by exact Lk. unfold byid at 1. cbn. rewrite (Nat.eqb_sym i). destruct (Nat.eqb_spec k i) as [<-|N']; cbn.
        -- fold (byid k (fst p)). rewrite byid_none by exact Nk. rewrite N. reflexivity.
        -- reflexivity.
Qed.
Lemma init_inv : forall fs, qinv (length fs) (fst (initPrQueue fs)) (snd (initPrQueue fs)) /\ forall i, pend (fst (initPrQueue fs)) (snd (initPrQueue fs)) i = nth i fs [].
Proof.
  intros fs. destruct (init_ok fs (length fs) (le_n _)) as (A & B & C & D & E & F). fold (initPrQueue fs) in *. split; [|exact F]. constructor; auto.
  intros i X. destruct (Nat.lt_ge_cases i (length fs)) as [L|L]; [apply D; assumption|]. exfalso. apply X. apply nth_overflow. rewrite A. exact L.
Qed.
(** ---- printing a group *)
Definition le2 (a b : K2) : Prop := lt2 b a = false.
Lemma le2_trans : forall a b c, le2 a b -> le2 b c -> le2 a c.
Proof.
  destruct O2 as (I2 & T2 & E2). unfold le2. intros a b c A B. destruct (lt2 c a) eqn:C; [|reflexivity]. destruct (lt2 a b) eqn:D; [rewrite (T2 _ _ _ C D) in B; discriminate|].
  pose proof (E2 _ _ D A). subst. congruence.
Qed.
Definition at_t (t : K2) (x : K2 * lg) : R := if d2 (fst x) t then lgexp (snd x) else 0.
Lemma sum_zero : forall {A} (f : A -> R) l, (forall x, In x l -> f x = 0) -> sumf f l = 0.
Proof. intros A f l H. rewrite (sumf_ext f (fun _ => 0) l H). apply sumf_0. Qed.
Lemma fin_sum : forall a b, finite a -> finite b -> finite (lgsumlog a b) /\ lgexp (lgsumlog a b) = lgexp a + lgexp b.
Proof. intros a b [x ->] [y ->]. split; [eexists; reflexivity|]. apply lgsumlog_exp; try discriminate. left; discriminate. Qed.
Lemma pc_ok : forall v s lc t n, StronglySorted le2 (t :: map fst v) -> finite n -> (forall x, In x v -> finite (snd x)) ->
  let o := print_counts d2 s lc t n v in
  strictly_sorted lt1 lt2 o /\ (forall r, In r o -> rs r = s /\ rd r = lc /\ le2 t (rt r) /\ finite (rn r) /\ lgexp (rn r) = at_t (rt r) (t, n) + sumf (at_t (rt r)) v) /\
  (forall t', (exists r, In r o /\ rt r = t') <-> t' = t \/ In t' (map fst v)).
Proof.
  destruct O2 as (I2 & T2 & E2). intros v. induction v as [|[t' n'] v IH]; intros s lc t n S1 Fn Fv.
  - cbn. split; [repeat constructor|]. split.
    + intros r [<-|[]]. cbn. split; [reflexivity|]. split; [reflexivity|]. split; [apply I2|]. split; [exact Fn|]. unfold at_t. cbn. destruct (d2 t t); [lra|congruence].
    + intros t'. split; [intros (r & [<-|[]] & <-); left; reflexivity|]. intros [->|[]]. eexists. split; [left; reflexivity|reflexivity].
  - cbn [print_counts]. cbn [map] in S1. inversion S1 as [|? ? S2 F]; subst. destruct (d2 t t') as [<-|N].
    + destruct (fin_sum n n') as [Fs Es]; [exact Fn|apply (Fv (t, n')); left; reflexivity|].
      destruct (IH s lc t (lgsumlog n n')) as (A & B & C); [exact S2|exact Fs|intros x X; apply Fv; right; exact X|]. split; [exact A|]. split.
      * intros r Hr. destruct (B r Hr) as (B1 & B2 & B3 & B4 & B5). do 4 (split; [assumption|]). rewrite B5. cbn [sumf]. unfold at_t. cbn [fst snd]. destruct (d2 t (rt r)); [rewrite Es|]; ring.
      * intros x. rewrite C. cbn. intuition.
    + cbn [fst] in S2, F. destruct (IH s lc t' n') as (A & B & C); [exact S2|apply (Fv (t', n')); left; reflexivity|intros x X; apply Fv; right; exact X|].
      assert (Lt : lt2 t t' = true).
      { rewrite Forall_forall in F. specialize (F t' (or_introl eq_refl)). unfold le2 in F. destruct (lt2 t t') eqn:E; [reflexivity|]. exfalso. apply N, E2; assumption. }
      assert (Gt : forall x, le2 t' x -> lt2 t x = true /\ t <> x).
      { intros x X. assert (lt2 t x = true). { unfold le2 in X. destruct (lt2 t' x) eqn:E; [eapply T2; eauto|]. rewrite <- (E2 _ _ E X). exact Lt. } split; [assumption|]. intros ->. rewrite I2 in *. discriminate. }
      split; [|split].
      * constructor; [exact A|]. rewrite Forall_forall. intros r Hr. destruct (B r Hr) as (B1 & _ & B3 & _). right. cbn. split; [congruence|]. apply Gt, B3.
      * intros r [<-|Hr]; cbn [rs rt rn rd].
        -- split; [reflexivity|]. split; [reflexivity|]. split; [apply I2|]. split; [exact Fn|]. rewrite sum_zero; [unfold at_t; cbn; destruct (d2 t t); [lra|congruence]|].
           intros x X. unfold at_t. destruct (d2 (fst x) t) as [E|]; [|reflexivity]. exfalso. assert (Q : le2 t' (fst x)). { destruct X as [<-|X]; [apply I2|]. inversion S2 as [|? ? ? F2]; subst. rewrite Forall_forall in F2. apply F2. apply in_map, X. }
           apply Gt in Q. destruct Q. congruence.
        -- destruct (B r Hr) as (B1 & B2 & B3 & B4 & B5). split; [exact B1|]. split; [exact B2|]. split; [eapply le2_trans; [|exact B3]; apply asym2, Lt|]. split; [exact B4|].
           rewrite B5. cbn [sumf]. assert (at_t (rt r) (t, n) = 0); [|lra]. unfold at_t. cbn. destruct (d2 t (rt r)) as [E|]; [|reflexivity]. exfalso. apply Gt in B3. destruct B3. congruence.
      * intros x. split.
        -- intros (r & [<-|Hr] & <-); [left; reflexivity|]. right. assert (Z : exists r0, In r0 (print_counts d2 s lc t' n' v) /\ rt r0 = rt r) by eauto. apply C in Z. cbn. intuition.
        -- intros [->|X]; [eexists; split; [left; reflexivity|reflexivity]|]. cbn in X. assert (Z : x = t' \/ In x (map fst v)) by intuition. apply C in Z as (r & R1 & R2). exists r. split; [right; exact R1|exact R2].
Qed.
(** ---- the loop *)
Variable Dn : nat -> K1 -> R.
Definition csum (P : list entry) (s : K1) (t : K2) : R := sumf (fun e => if d1 (rs (er e)) s then if d2 (rt (er e)) t then lgexp (rn (er e)) else 0 else 0) P.
Definition ids (P : list entry) (s : K1) : list nat := nodup Nat.eq_dec (map eid (filter (fun e => if d1 (rs (er e)) s then true else false) P)).
Definition dsum (P : list entry) (s : K1) : R := sumf (fun i => Dn i s) (ids P s).
Definition good (P : list entry) (out : list record) : Prop :=
  strictly_sorted lt1 lt2 out /\ (forall s t, has out s t <-> exists e, In e P /\ rs (er e) = s /\ rt (er e) = t) /\
  forall r, In r out -> finite (rn r) /\ finite (rd r) /\ lgexp (rn r) = csum P (rs r) (rt r) /\ lgexp (rd r) = dsum P (rs r).
Definition okent (e : entry) : Prop := finite (rn (er e)) /\ finite (rd (er e)) /\ lgexp (rd (er e)) = Dn (eid e) (rs (er e)).
Record linv (P0 G : list entry) (s : K1) (st : @mst K1 K2) : Prop := {
  l_ne : G <> []; l_src : m_src st = Some s; l_G : forall e, In e G -> rs (er e) = s; l_P : forall e, In e P0 -> lt1 (rs (er e)) s = true;
  l_vec : m_vec st = map (fun e => (rt (er e), rn (er e))) G; l_cnd : NoDup (m_chunks st); l_cin : forall i, In i (m_chunks st) <-> exists e, In e G /\ eid e = i;
  l_fin : finite (m_lc st); l_lc : lgexp (m_lc st) = sumf (fun i => Dn i s) (m_chunks st); l_out : good P0 (m_out st) }.
Definition esorted (L : list entry) : Prop := StronglySorted (fun a b => after lt1 lt2 (er a) (er b) = false) L.
Lemma ssorted_app : forall {A} (R : A -> A -> Prop) a b, StronglySorted R (a ++ b) <-> StronglySorted R a /\ StronglySorted R b /\ forall x y, In x a -> In y b -> R x y.
Proof.
  intros A R a b. induction a as [|x a IH]; cbn.
  - split; [intros H; split; [constructor|]; split; [exact H|intros ? ? []]|tauto].
  - split.
    + intros H. inversion H as [|? ? H1 H2]; subst. apply IH in H1 as (A1 & A2 & A3). rewrite Forall_app in H2. destruct H2 as [F1 F2]. split; [constructor; assumption|]. split; [exact A2|].
      intros y z [<-|Y] Z; [rewrite Forall_forall in F2; auto|auto].
    + intros (H1 & H2 & H3). inversion H1 as [|? ? H4 H5]; subst. constructor; [apply IH; auto|]. apply Forall_app. split; [exact H5|]. rewrite Forall_forall. auto.
Qed.
Lemma sum_nodup_same : forall (f : nat -> R) a b, NoDup a -> NoDup b -> (forall i, In i a <-> In i b) -> sumf f a = sumf f b.
Proof.
  intros f a b Na Nb H. assert (P : Permutation a b) by (apply NoDup_Permutation; assumption). clear -P. induction P; cbn; [reflexivity|rewrite IHP; reflexivity|ring|congruence].
Qed.
Lemma group_ok : forall P0 G s st, linv P0 G s st -> esorted (P0 ++ G) -> Forall okent (P0 ++ G) -> exists o, printCounts d2 s (m_vec st) (m_lc st) = Some o /\ good (P0 ++ G) (m_out st ++ o).
Proof.
  intros P0 G s st I0 S0 K0. destruct I0 as [Ne Sr HG HP Vc Cnd Cin Fl Lc Go]. destruct Go as (S1 & Hh & Hv). rewrite Vc. destruct O1 as (I1 & T1 & E1). destruct O2 as (I2 & T2 & E2).
  destruct G as [|e G]; [congruence|]. cbn [map printCounts]. eexists. split; [reflexivity|].
  apply ssorted_app in S0 as (_ & S0 & _).
  assert (S2 : StronglySorted le2 (rt (er e) :: map fst (map (fun x : entry => (rt (er x), rn (er x))) G))).
  { rewrite map_map. cbn. change (StronglySorted le2 (map (fun x : entry => rt (er x)) (e :: G))). clear -S0 HG I1. induction S0 as [|a l S0 IH F]; cbn; [constructor|]. constructor; [apply IH; intros; apply HG; right; assumption|].
    rewrite Forall_forall in *. intros t Ht. apply in_map_iff in Ht as (x & <- & Hx). specialize (F x Hx). unfold after in F. rewrite (HG a (or_introl eq_refl)), (HG x (or_intror Hx)), I1 in F. unfold le2. destruct (lt2 (rt (er x)) (rt (er a))); [discriminate|reflexivity]. }
  rewrite Forall_forall in K0. destruct (pc_ok (map (fun x : entry => (rt (er x), rn (er x))) G) s (m_lc st) (rt (er e)) (rn (er e)) S2) as (A & B & C).
  { apply K0, in_or_app. right; left; reflexivity. }
  { intros x X. apply in_map_iff in X as (y & <- & Y). cbn. apply K0, in_or_app. right; right; exact Y. }
  set (o := print_counts d2 s (m_lc st) (rt (er e)) (rn (er e)) (map (fun x : entry => (rt (er x), rn (er x))) G)) in *.
  assert (Op : forall r, In r (m_out st) -> lt1 (rs r) s = true).
  { intros r Hr. assert (X : has (m_out st) (rs r) (rt r)) by (exists r; auto). apply Hh in X as (x & X1 & X2 & _). rewrite <- X2. apply HP, X1. }
  assert (Irr : forall x, lt1 x s = true -> x <> s) by (intros x X ->; rewrite I1 in X; discriminate).
  assert (To : forall t, (exists r, In r o /\ rt r = t) <-> exists x, In x (e :: G) /\ rt (er x) = t).
  { intros t. rewrite C, map_map. cbn. rewrite in_map_iff. split; [intros [->|(x & <- & X)]; eauto|]. intros (x & [<-|X] & <-); [left; reflexivity|right; eauto]. }
  split; [|split].
  - apply ssorted_app. split; [exact S1|]. split; [exact A|]. intros x y X Y. left. rewrite (proj1 (B y Y)). apply Op, X.
  - intros s' t. split.
    + intros (r & Hr & <- & <-). apply in_app_or in Hr as [Hr|Hr].
      * assert (X : has (m_out st) (rs r) (rt r)) by (exists r; auto). apply Hh in X as (x & X1 & X2). exists x. split; [apply in_or_app; left; exact X1|exact X2].
      * assert (X : exists r', In r' o /\ rt r' = rt r) by eauto. apply To in X as (x & X1 & X2). exists x. split; [apply in_or_app; right; exact X1|]. split; [rewrite (HG x X1); symmetry; apply B, Hr|exact X2].
    + intros (x & X1 & X2 & X3). apply in_app_or in X1 as [X1|X1].
      * assert (X : has (m_out st) s' t) by (apply Hh; eauto). destruct X as (r & R1 & R2). exists r. split; [apply in_or_app; left; exact R1|exact R2].
      * assert (X : exists x, In x (e :: G) /\ rt (er x) = t) by eauto. apply To in X as (r & R1 & R2). exists r. split; [apply in_or_app; right; exact R1|]. split; [rewrite (proj1 (B r R1)), <- X2; symmetry; apply HG, X1|exact R2].
  - assert (Cs : forall s' t, csum (P0 ++ e :: G) s' t = csum P0 s' t + csum (e :: G) s' t) by (intros; unfold csum; apply sumf_app).
    assert (Z1 : forall s' t, s' <> s -> csum (e :: G) s' t = 0). { intros s' t N. apply sum_zero. intros x X. rewrite (HG x X). destruct (d1 s s'); [congruence|reflexivity]. }
    assert (Z2 : forall t, csum P0 s t = 0). { intros t. apply sum_zero. intros x X. destruct (d1 (rs (er x)) s) as [E|]; [|reflexivity]. exfalso. apply (Irr _ (HP x X)), E. }
    intros r Hr. apply in_app_or in Hr as [Hr|Hr].
    + destruct (Hv r Hr) as (V1 & V2 & V3 & V4). pose proof (Irr _ (Op r Hr)) as Nr. split; [exact V1|]. split; [exact V2|]. split; [rewrite Cs, Z1 by exact Nr; rewrite V3; ring|].
      rewrite V4. unfold dsum, ids. f_equal. f_equal. rewrite filter_app. assert (Fz : filter (fun x : entry => if d1 (rs (er x)) (rs r) then true else false) (e :: G) = []).
      { clear -HG Nr. induction (e :: G) as [|x l IH]; [reflexivity|]. cbn. rewrite (HG x (or_introl eq_refl)). destruct (d1 s (rs r)); [congruence|]. apply IH. intros; apply HG; right; assumption. }
      rewrite Fz, app_nil_r. reflexivity.
    + destruct (B r Hr) as (B1 & B2 & B3 & B4 & B5). split; [exact B4|]. split; [rewrite B2; exact Fl|]. split.
      * rewrite B1, Cs, Z2, B5, sumf_map. unfold csum. cbn [sumf]. rewrite (HG e (or_introl eq_refl)). destruct (d1 s s); [|congruence]. unfold at_t at 1. cbn [fst snd]. rewrite Rplus_0_l. f_equal. apply sumf_ext. intros x X. rewrite (HG x (or_intror X)). destruct (d1 s s); [reflexivity|congruence].
      * rewrite B1, B2, Lc. unfold dsum. apply sum_nodup_same; [exact Cnd|apply NoDup_nodup|]. intros i. rewrite Cin. unfold ids. rewrite nodup_In, in_map_iff. split.
        -- intros (x & X1 & X2). exists x. split; [exact X2|]. apply filter_In. split; [apply in_or_app; right; exact X1|]. rewrite (HG x X1). destruct (d1 s s); congruence.
        -- intros (x & X2 & X1). apply filter_In in X1 as [X1 X3]. apply in_app_or in X1 as [X1|X1]; [|eauto]. exfalso. destruct (d1 (rs (er x)) s) as [E|]; [|discriminate]. apply (Irr _ (HP x X1)), E.
Qed.
Lemma good_nil : good [] [].
Proof. split; [constructor|]. split; [|intros r []]. intros s t. split; [intros (r & [] & _)|intros (e & [] & _)]. Qed.
Lemma count_new : forall P0 e lc out v, (forall x, In x P0 -> lt1 (rs (er x)) (rs (er e)) = true) -> okent e -> good P0 out -> lc = LZ -> v = [(rt (er e), rn (er e))] ->
  linv P0 [e] (rs (er e)) (count_chunk e {| m_src := Some (rs (er e)); m_lc := lc; m_vec := v; m_chunks := []; m_out := out |}).
Proof.
  intros P0 e lc out v H (F1 & [x Fx] & F3) Go -> ->. unfold count_chunk. cbn [m_chunks]. destruct (in_dec Nat.eq_dec (eid e) []) as [[]|_]. constructor; cbn; try assumption; try reflexivity.
  - discriminate.
  - intros y [<-|[]]; reflexivity.
  - repeat constructor. intros [].
  - intros i. split; [intros [<-|[]]; eauto|]. intros (y & [<-|[]] & <-). left; reflexivity.
  - rewrite Fx. eexists; reflexivity.
  - rewrite <- F3, Fx. cbn. ring.
Qed.
Lemma count_same : forall P0 G s st e, linv P0 G s st -> rs (er e) = s -> okent e ->
  linv P0 (G ++ [e]) s (count_chunk e {| m_src := Some s; m_lc := m_lc st; m_vec := m_vec st ++ [(rt (er e), rn (er e))]; m_chunks := m_chunks st; m_out := m_out st |}).
Proof.
  intros P0 G s st e [Ne Sr HG HP Vc Cnd Cin Fl Lc Go] Es (F1 & F2 & F3). unfold count_chunk. cbn [m_chunks].
  assert (X1 : G ++ [e] <> []) by (destruct G; discriminate).
  assert (X2 : forall x, In x (G ++ [e]) -> rs (er x) = s) by (intros x X; apply in_app_or in X as [X|[<-|[]]]; auto).
  assert (X3 : m_vec st ++ [(rt (er e), rn (er e))] = map (fun e0 : entry => (rt (er e0), rn (er e0))) (G ++ [e])) by (rewrite map_app, Vc; reflexivity).
  destruct (in_dec Nat.eq_dec (eid e) (m_chunks st)) as [I|I]; constructor; cbn; try assumption; try reflexivity.
  - intros i. rewrite Cin. split; [intros (x & A & B); exists x; split; [apply in_or_app; left; exact A|exact B]|]. intros (x & A & B). apply in_app_or in A as [A|[<-|[]]]; [eauto|]. subst i. apply Cin, I.
  - constructor; assumption.
  - intros i. split.
    + intros [<-|X]; [exists e; split; [apply in_or_app; right; left; reflexivity|reflexivity]|]. apply Cin in X as (x & A & B). exists x. split; [apply in_or_app; left; exact A|exact B].
    + intros (x & A & B). apply in_app_or in A as [A|[<-|[]]]; [right; apply Cin; eauto|left; exact B].
  - apply fin_sum; assumption.
  - rewrite (proj2 (fin_sum _ _ Fl F2)), Lc, F3, Es. ring.
Qed.
Lemma loop_ok : forall L P0 G s st, linv P0 G s st -> esorted (P0 ++ G ++ L) -> Forall okent (P0 ++ G ++ L) ->
  exists st' P1 G1 s', merge_loop d1 d2 st L = Some st' /\ linv P1 G1 s' st' /\ P1 ++ G1 = P0 ++ G ++ L.
Proof.
  intros L. induction L as [|e L IH]; intros P0 G s st Iv S0 K0.
  - exists st, P0, G, s. split; [reflexivity|]. split; [exact Iv|]. now rewrite app_nil_r.
  - cbn [merge_loop]. unfold merge_step. rewrite (l_src _ _ _ _ Iv).
    assert (Ke : okent e) by (rewrite Forall_forall in K0; apply K0, in_or_app; right; apply in_or_app; right; left; reflexivity).
    destruct (d1 s (rs (er e))) as [E|N].
    + destruct (IH P0 (G ++ [e]) s _ (count_same _ _ _ _ _ Iv (eq_sym E) Ke)) as (st' & P1 & G1 & s' & A & B & C); [rewrite <- app_assoc; exact S0|rewrite <- app_assoc; exact K0|].
      exists st', P1, G1, s'. split; [exact A|]. split; [exact B|]. rewrite C, <- app_assoc. reflexivity.
    + assert (S1 : esorted ((P0 ++ G) ++ e :: L)) by (rewrite <- app_assoc; exact S0). assert (K1' : Forall okent ((P0 ++ G) ++ e :: L)) by (rewrite <- app_assoc; exact K0).
      apply ssorted_app in S1 as S1'. destruct S1' as (S2 & _ & S3). apply Forall_app in K1' as K2'. destruct K2' as [K2' _].
      destruct (group_ok _ _ _ _ Iv S2 K2') as (o & Po & Go). rewrite Po.
      assert (Lt : lt1 s (rs (er e)) = true).
      { destruct G as [|x G]; [destruct (l_ne _ _ _ _ Iv eq_refl)|]. assert (X : after lt1 lt2 (er x) (er e) = false) by (apply S3; [apply in_or_app; right; left; reflexivity|left; reflexivity]).
        apply after_false in X. pose proof (l_G _ _ _ _ Iv x (or_introl eq_refl)) as Ex. destruct X as [[X|[X _]]|[X _]]; congruence. }
      destruct (IH (P0 ++ G) [e] (rs (er e)) (count_chunk e {| m_src := Some (rs (er e)); m_lc := LZ; m_vec := [(rt (er e), rn (er e))]; m_chunks := []; m_out := m_out st ++ o |})) as (st' & P1 & G1 & s' & A & B & C).
      * apply count_new; auto. intros x X. apply in_app_or in X as [X|X]; [|rewrite (l_G _ _ _ _ Iv x X); exact Lt]. destruct O1 as (_ & T1 & _). eapply T1; [apply (l_P _ _ _ _ Iv x X)|exact Lt].
      * exact S1. * exact K1'.
      * exists st', P1, G1, s'. split; [exact A|]. split; [exact B|]. rewrite C. cbn. rewrite <- app_assoc. reflexivity.
Qed.
Lemma main_ok : forall L, L <> [] -> esorted L -> Forall okent L -> exists out, merge_main d1 d2 L = Some out /\ good L out.
Proof.
  intros [|e L] Ne S0 K0; [congruence|]. unfold merge_main. cbn [merge_loop merge_step mst0 m_src].
  destruct (loop_ok L [] [e] (rs (er e)) (count_chunk e {| m_src := Some (rs (er e)); m_lc := LZ; m_vec := [(rt (er e), rn (er e))]; m_chunks := []; m_out := [] |})) as (st' & P1 & G1 & s' & A & B & C).
  - apply count_new; [intros x []|inversion K0; assumption|apply good_nil|reflexivity|reflexivity].
  - exact S0. - exact K0.
  - cbn [app m_lc m_vec m_chunks m_out mst0]. rewrite A, (l_src _ _ _ _ B). cbn [app] in C. destruct (group_ok _ _ _ _ B) as (o & Po & Go); [rewrite C; exact S0|rewrite C; exact K0|].
    rewrite Po. eexists. split; [reflexivity|]. rewrite <- C. exact Go.
Qed.
End PF.
Section MERGE.
Context {K1 K2 : Type}.
Variable lt1 : K1 -> K1 -> bool.
Variable lt2 : K2 -> K2 -> bool.
Variable d1 : forall a b : K1, {a = b} + {a <> b}.
Variable d2 : forall a b : K2, {a = b} + {a <> b}.
Hypothesis O1 : total_order lt1.
Hypothesis O2 : total_order lt2.
Notation record := (rec K1 K2).
Notation entry := (entry K1 K2).
Lemma total_in : forall f (r : record), consistent f -> In r f -> total_of d1 f (rs r) = lgexp (rd r).
Proof.
  intros f r C H. unfold total_of. destruct (find _ f) as [r'|] eqn:E.
  - apply find_some in E as [E1 E2]. destruct (d1 (rs r') (rs r)) as [E|]; [|discriminate]. f_equal. apply (C r H); assumption.
  - exfalso. pose proof (find_none _ _ E r H) as X. cbn in X. destruct (d1 (rs r) (rs r)); congruence.
Qed.
Lemma total_none : forall (f : list record) s, (forall r, In r f -> rs r <> s) -> total_of d1 f s = 0.
Proof. intros f s H. unfold total_of. destruct (find _ f) as [r'|] eqn:E; [|reflexivity]. apply find_some in E as [E1 E2]. destruct (d1 (rs r') s) as [E|]; [|discriminate]. destruct (H r' E1 E). Qed.
Lemma sum_by_nth : forall {A} (f : A -> R) (l : list A) d, sumf f l = sumf (fun i => f (nth i l d)) (seq 0 (length l)).
Proof. intros A f l d. induction l as [|x l IH]; [reflexivity|]. cbn [length seq sumf nth]. f_equal. rewrite IH, <- seq_shift, sumf_map. reflexivity. Qed.
Lemma sum_by_id : forall (g : record -> R) n (L : list entry), (forall e, In e L -> (eid e < n)%nat) -> sumf (fun e => g (er e)) L = sumf (fun i => sumf g (byid i L)) (seq 0 n).
Proof.
  intros g n L. induction L as [|e L IH]; intros H; [cbn; symmetry; apply sumf_0|]. cbn [sumf]. rewrite IH by (intros; apply H; right; assumption).
  transitivity (sumf (fun i => (if Nat.eqb (eid e) i then g (er e) else 0) + sumf g (byid i L)) (seq 0 n)).
  - rewrite sumf_plus. f_equal. assert (He : In (eid e) (seq 0 n)) by (apply in_seq; specialize (H e (or_introl eq_refl)); lia). pose proof (seq_NoDup n 0) as ND. clear -He ND. induction (seq 0 n) as [|x l IHl]; [destruct He|].
    inversion ND; subst. cbn [sumf]. destruct He as [->|He].
    + rewrite Nat.eqb_refl, sum_zero; [ring|]. intros y Y. destruct (Nat.eqb_spec (eid e) y); [subst; contradiction|reflexivity].
    + destruct (Nat.eqb_spec (eid e) x); [subst; contradiction|]. rewrite <- IHl by assumption. ring.
  - apply sumf_ext. intros i _. unfold byid. cbn. destruct (Nat.eqb (eid e) i); cbn [map sumf]; ring.
Qed.
Lemma strict_unique : forall (f : list record), strictly_sorted lt1 lt2 f -> forall r r', In r f -> In r' f -> rs r = rs r' -> rt r = rt r' -> r = r'.
Proof.
  intros f S0. induction S0 as [|a f S0 IH F]; intros r r' H H' E E'; [destruct H|]. rewrite Forall_forall in F.
  destruct H as [<-|H], H' as [<-|H']; [reflexivity| | |apply IH; assumption].
  - exfalso. apply (klt_irr lt1 lt2 O1 O2 a r' (F r' H')). split; assumption.
  - exfalso. apply (klt_irr lt1 lt2 O1 O2 a r (F r H)). split; congruence.
Qed.
Lemma count_in : forall (f : list record) r, strictly_sorted lt1 lt2 f -> In r f -> count_of d1 d2 f (rs r) (rt r) = lgexp (rn r).
Proof.
  intros f r S0 H. induction S0 as [|a f S0 IH F]; [destruct H|]. rewrite Forall_forall in F. unfold count_of. cbn [sumf]. fold (count_of d1 d2 f (rs r) (rt r)). destruct H as [->|H].
  - destruct (d1 (rs r) (rs r)); [|congruence]. destruct (d2 (rt r) (rt r)); [|congruence]. unfold count_of. rewrite sum_zero; [ring|]. intros x X. specialize (F x X). apply klt_irr in F; [|assumption..].
    destruct (d1 (rs x) (rs r)); [|reflexivity]. destruct (d2 (rt x) (rt r)); [|reflexivity]. exfalso. apply F. split; congruence.
  - rewrite IH by exact H. specialize (F r H). apply klt_irr in F; [|assumption..]. destruct (d1 (rs a) (rs r)); [|ring]. destruct (d2 (rt a) (rt r)); [|ring]. exfalso. apply F. split; assumption.
Qed.
Lemma count_none : forall (f : list record) s t, ~ has f s t -> count_of d1 d2 f s t = 0.
Proof. intros f s t H. apply sum_zero. intros r Hr. destruct (d1 (rs r) s); [|reflexivity]. destruct (d2 (rt r) t); [|reflexivity]. exfalso. apply H. exists r. auto. Qed.
Lemma strict_le : forall f, strictly_sorted lt1 lt2 f -> lefile lt1 lt2 f.
Proof. intros f S0. induction S0 as [|a f S0 IH F]; constructor; [exact IH|]. eapply Forall_impl; [|exact F]. intros b Hb. apply after_false; [assumption..|]. left. exact Hb. Qed.
Theorem merge_total : forall fs, exists out, merge_tool lt1 lt2 d1 d2 fs out.
Proof.
  intros fs. destruct (init_inv fs) as [Q _]. destruct (drain_ex lt1 lt2 O1 O2 _ _ _ _ Q (le_n _)) as [L D]. eexists. exists L. split; [exact D|reflexivity].
Qed.
Theorem merge_correct : forall fs res, (forall f, In f fs -> strictly_sorted lt1 lt2 f /\ consistent f) -> concat fs <> [] -> merge_tool lt1 lt2 d1 d2 fs res ->
  exists out, res = Some out /\ is_merge lt1 lt2 d1 d2 fs out.
Proof.
  intros fs res H Ne (L & D & ->). destruct (init_inv fs) as [Q P]. destruct (drain_pend lt1 lt2 _ _ _ D _ Q) as [B I0].
  assert (Fi : forall i, strictly_sorted lt1 lt2 (nth i fs []) /\ consistent (nth i fs [])).
  { intros i. destruct (Nat.lt_ge_cases i (length fs)) as [X|X]; [apply H, nth_In, X|]. rewrite nth_overflow by exact X. split; [constructor|intros r []]. }
  assert (B' : forall i, byid i L = nth i fs []) by (intros i; rewrite B; apply P).
  assert (S0 : esorted lt1 lt2 L). { apply (drain_sorted lt1 lt2 O1 O2 _ _ _ D _ Q). intros i. rewrite P. apply strict_le, Fi. }
  assert (El : forall e, In e L -> In (er e) (nth (eid e) fs [])) by (intros e He; rewrite <- B'; apply in_byid, He).
  set (Dn := fun i s => total_of d1 (nth i fs []) s).
  assert (K0 : Forall (okent Dn) L).
  { rewrite Forall_forall. intros e He. specialize (El e He). destruct (Fi (eid e)) as [_ C]. destruct (C _ El) as (C1 & C2 & _). split; [exact C1|]. split; [exact C2|]. symmetry. apply total_in; assumption. }
  assert (NL : L <> []).
  { intros ->. apply Ne. destruct (concat fs) as [|r c] eqn:E; [reflexivity|]. exfalso. assert (X : In r (concat fs)) by (rewrite E; left; reflexivity). apply in_concat in X as (f & X1 & X2). apply (In_nth _ _ []) in X1 as (i & _ & X1). pose proof (B' i) as B2. rewrite X1 in B2. cbn in B2. rewrite <- B2 in X2. destruct X2. }
  destruct (main_ok lt1 lt2 d1 d2 O1 O2 Dn L NL S0 K0) as (out & Mo & S1 & Hh & Hv). exists out. split; [exact Mo|].
  assert (Hf : forall s t, has out s t <-> exists f, In f fs /\ has f s t).
  { intros s t. rewrite Hh. split.
    - intros (e & He & E1 & E2). exists (nth (eid e) fs []). split; [apply nth_In, I0, He|]. exists (er e). split; [apply El, He|auto].
    - intros (f & F1 & r & R1 & R2 & R3). apply (In_nth _ _ []) in F1 as (i & Hi & F1). rewrite <- F1, <- B' in R1. apply byid_in in R1 as (e & E1 & E2 & _). subst r. eauto. }
  assert (Cs : forall s t, csum d1 d2 L s t = sumf (fun f => count_of d1 d2 f s t) fs).
  { intros s t. unfold csum. rewrite (sum_by_id (fun r => if d1 (rs r) s then if d2 (rt r) t then lgexp (rn r) else 0 else 0) _ L I0), (sum_by_nth _ fs []). apply sumf_ext. intros i _. rewrite B'. reflexivity. }
  assert (Ds : forall s, dsum d1 Dn L s = sumf (fun f => total_of d1 f s) fs).
  { intros s. rewrite (sum_by_nth _ fs []). unfold dsum. fold (Dn : nat -> K1 -> R). change (sumf (fun i => Dn i s) (ids d1 L s) = sumf (fun i => Dn i s) (seq 0 (length fs))).
    set (h := fun i => if in_dec Nat.eq_dec i (ids d1 L s) then Dn i s else 0).
    assert (Hz : forall i, h i = Dn i s).
    { intros i. unfold h. destruct (in_dec Nat.eq_dec i (ids d1 L s)) as [|N]; [reflexivity|]. symmetry. apply total_none. intros r Hr E. apply N. rewrite <- B' in Hr. apply byid_in in Hr as (e & E1 & E2 & E3). unfold ids. rewrite nodup_In, in_map_iff. exists e. split; [exact E3|]. apply filter_In. split; [exact E1|]. rewrite E2. destruct (d1 (rs r) s); congruence. }
    rewrite <- (sumf_ext h (fun i => Dn i s) (seq 0 (length fs))) by (intros; apply Hz). rewrite (sumf_change h (fun _ => 0) (ids d1 L s) (seq 0 (length fs))).
    - rewrite !sumf_0. rewrite (sumf_ext h (fun i => Dn i s) (ids d1 L s)) by (intros; apply Hz). ring.
    - apply NoDup_nodup. - apply seq_NoDup.
    - intros i Hi. unfold ids in Hi. rewrite nodup_In, in_map_iff in Hi. destruct Hi as (e & <- & He). apply filter_In in He as [He _]. apply in_seq0, I0, He.
    - intros i N. unfold h. destruct (in_dec Nat.eq_dec i (ids d1 L s)); [contradiction|reflexivity]. }
  split; [exact S1|]. split; [|split; [exact Hf|split]].
  - intros r Hr. destruct (Hv r Hr) as (V1 & V2 & V3 & V4). split; [exact V1|]. split; [exact V2|]. intros r' Hr' E. destruct (Hv r' Hr') as (_ & W2 & _ & W4). rewrite E, <- V4 in W4. destruct V2 as [x X], W2 as [y Y]. apply lgexp_inj; [rewrite Y; discriminate|rewrite X; discriminate|exact W4].
  - intros s t. rewrite <- Cs. destruct (in_dec (pd d1 d2) (s, t) (map (fun r => (rs r, rt r)) out)) as [X|X].
    + apply in_map_iff in X as (r & E & Hr). inversion E; subst. rewrite count_in by assumption. apply Hv, Hr.
    + assert (X' : ~ has out s t) by (intros (r & R1 & R2 & R3); apply X, in_map_iff; exists r; split; [congruence|exact R1]). rewrite count_none by exact X'. symmetry. apply sum_zero. intros e He.
      destruct (d1 (rs (er e)) s) as [E1|]; [|reflexivity]. destruct (d2 (rt (er e)) t) as [E2|]; [|reflexivity]. exfalso. apply X', Hh. eauto.
  - intros s. rewrite <- Ds. destruct (in_dec d1 s (map rs out)) as [X|X].
    + apply in_map_iff in X as (r & E & Hr). subst s. rewrite total_in; [apply Hv, Hr| |exact Hr]. intros r0 Hr0. destruct (Hv r0 Hr0) as (V1 & V2 & V3 & V4). split; [exact V1|]. split; [exact V2|]. intros r' Hr' E. destruct (Hv r' Hr') as (_ & W2 & _ & W4). rewrite E, <- V4 in W4. destruct V2 as [x X], W2 as [y Y]. apply lgexp_inj; [rewrite Y; discriminate|rewrite X; discriminate|exact W4].
    + rewrite total_none by (intros r Hr E; apply X, in_map_iff; eauto). symmetry. unfold dsum. replace (ids d1 L s) with (@nil nat); [reflexivity|]. destruct (ids d1 L s) as [|i l] eqn:E; [reflexivity|]. exfalso. assert (Hi : In i (ids d1 L s)) by (rewrite E; left; reflexivity).
      unfold ids in Hi. rewrite nodup_In, in_map_iff in Hi. destruct Hi as (e & _ & He). apply filter_In in He as [He E1]. destruct (d1 (rs (er e)) s) as [E2|]; [|discriminate]. assert (Y : has out s (rt (er e))) by (apply Hh; eauto). destruct Y as (r & R1 & R2 & _). apply X, in_map_iff. eauto.
Qed.
Theorem merge_empty : forall fs res, concat fs = [] -> merge_tool lt1 lt2 d1 d2 fs res -> res = None.
Proof.
  intros fs res E (L & D & ->). destruct (init_inv fs) as [Q P]. destruct (drain_pend lt1 lt2 _ _ _ D _ Q) as [B I0]. destruct L as [|e L]; [reflexivity|]. exfalso.
  assert (X : In (er e) (byid (eid e) (e :: L))) by (apply in_byid; left; reflexivity). rewrite B, P in X.
  assert (Y : In (er e) (concat fs)) by (apply in_concat; exists (nth (eid e) fs []); split; [apply nth_In, I0; left; reflexivity|exact X]). rewrite E in Y. destruct Y.
Qed.
End MERGE.
