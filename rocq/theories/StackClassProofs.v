From Coq Require Import ZArith Arith List Bool Lia.
From Verif Require Import StackSpec StackModel.
Import ListNotations.
Open Scope nat_scope.
Lemma filter_or_len : forall (f g : nat -> bool) l, (forall x, In x l -> f x && g x = false) -> length (filter (fun x => f x || g x) l) = length (filter f l) + length (filter g l).
Proof.
  induction l as [|x l IH]; intros H; [reflexivity|]. cbn [filter]. specialize (IH (fun y Y => H y (or_intror Y))). specialize (H x (or_introl eq_refl)).
  destruct (f x), (g x); cbn [orb length] in *; try discriminate; lia.
Qed.
Lemma range_len : forall n s a b, s <= a -> a <= b -> b < s + n -> length (filter (fun p => (a <=? p) && (p <=? b)) (seq s n)) = b - a + 1.
Proof.
  intros n s a b H1 H2 H3. replace (seq s n) with (seq s (a - s) ++ seq a (b - a + 1) ++ seq (b + 1) (s + n - (b + 1))).
  - rewrite !filter_app, !app_length.
    assert (Z : forall l, (forall x, In x l -> x < a \/ b < x) -> length (filter (fun p => (a <=? p) && (p <=? b)) l) = 0).
    { induction l as [|x l IH]; intros H; [reflexivity|]. cbn [filter]. specialize (IH (fun y Y => H y (or_intror Y))). specialize (H x (or_introl eq_refl)). destruct (Nat.leb_spec a x), (Nat.leb_spec x b); cbn; lia. }
    assert (O : forall l, (forall x, In x l -> a <= x <= b) -> length (filter (fun p => (a <=? p) && (p <=? b)) l) = length l).
    { induction l as [|x l IH]; intros H; [reflexivity|]. cbn [filter]. specialize (IH (fun y Y => H y (or_intror Y))). specialize (H x (or_introl eq_refl)). destruct (Nat.leb_spec a x), (Nat.leb_spec x b); cbn; lia. }
    rewrite (Z (seq s (a - s))) by (intros x X; apply in_seq in X; lia). rewrite (O (seq a (b - a + 1))) by (intros x X; apply in_seq in X; lia).
    rewrite (Z (seq (b + 1) (s + n - (b + 1)))) by (intros x X; apply in_seq in X; lia). rewrite seq_length. lia.
  - replace (b + 1) with (a + (b - a + 1)) at 1 by lia. rewrite <- seq_app. replace a with (s + (a - s)) at 2 by lia. rewrite <- seq_app. f_equal. lia.
Qed.
Lemma cls_cov : forall segs prev n, Forall (fun s => 1 <= fst s <= snd s /\ snd s <= n) segs -> ForallOrdPairs (fun s u => snd s < fst u \/ snd u < fst s) segs ->
  fst (seg_class_aux prev segs) = length (filter (seg_covers segs) (seq 1 n)).
Proof.
  induction segs as [|[a b] segs IH]; intros prev n F P.
  - cbn. induction (seq 1 n); auto.
  - inversion F as [|? ? B F']; inversion P as [|? ? D P']; subst. cbn [seg_class_aux]. specialize (IH (Some b) n F' P'). destruct (seg_class_aux (Some b) segs) as [c j]. cbn [fst snd] in *.
    change (seg_covers ((a, b) :: segs)) with (fun p => ((a <=? p) && (p <=? b)) || seg_covers segs p). rewrite filter_or_len; [rewrite range_len, <- IH by lia|].
    + reflexivity.
    + intros x _. destruct ((a <=? x) && (x <=? b)) eqn:E; [|reflexivity]. apply andb_true_iff in E as [E1 E2]. apply Nat.leb_le in E1, E2.
      destruct (seg_covers segs x) eqn:G; [|reflexivity]. unfold seg_covers in G. apply existsb_exists in G as (u & U & V). apply andb_true_iff in V as [V1 V2]. apply Nat.leb_le in V1, V2.
      rewrite Forall_forall in D. specialize (D u U). cbn in D. lia.
Qed.
Lemma cls_jump : forall segs prev, Forall (fun s => 1 <= fst s <= snd s) segs -> (snd (seg_class_aux prev segs) = 0 <->
  forall k s, nth_error segs k = Some s -> fst s = S (match k with 0 => match prev with Some e => e | None => 0 end | S k' => snd (nth k' segs (0, 0)) end)).
Proof.
  induction segs as [|[a b] segs IH]; intros prev F.
  - split; [intros _ [|k] s; discriminate|reflexivity].
  - inversion F as [|? ? B F']; subst. cbn [seg_class_aux]. specialize (IH (Some b) F'). destruct (seg_class_aux (Some b) segs) as [c j]. cbn [fst snd] in *. split.
    + intros H [|k] s E; cbn in E.
      * inversion E; subst. cbn [fst]. destruct prev as [e|]; [destruct (Nat.eqb_spec (e + 1) a)|destruct (Nat.ltb_spec 1 a)]; lia.
      * assert (J : j = 0) by lia. rewrite (proj1 IH J k s E). destruct k; reflexivity.
    + intros H. assert (J : j = 0). { apply IH. intros k s E. rewrite (H (S k) s E). destruct k; reflexivity. }
      pose proof (H 0 (a, b) eq_refl) as Q. cbn [fst] in Q. destruct prev as [e|]; [destruct (Nat.eqb_spec (e + 1) a)|destruct (Nat.ltb_spec 1 a)]; lia.
Qed.
Lemma class01_spec : forall segs n, Forall (fun s => 1 <= fst s <= snd s /\ snd s <= n) segs -> ForallOrdPairs (fun s u => snd s < fst u \/ snd u < fst s) segs ->
  fst (seg_class01 segs) = length (filter (seg_covers segs) (seq 1 n)) /\
  snd (seg_class01 segs) <= 1 /\
  (snd (seg_class01 segs) = 0 <-> forall k s, nth_error segs k = Some s -> fst s = S (match k with 0 => 0 | S k' => snd (nth k' segs (0, 0)) end)).
Proof.
  intros segs n F P. pose proof (cls_cov segs None n F P) as C. assert (F' : Forall (fun s => 1 <= fst s <= snd s) segs) by (eapply Forall_impl; [|exact F]; cbn; tauto).
  pose proof (cls_jump segs None F') as J. unfold seg_class01. destruct (seg_class_aux None segs) as [c j]. cbn [fst snd] in *. split; [exact C|].
  destruct (Nat.ltb_spec 1 j).
  - split; [lia|]. rewrite <- J. lia.
  - split; [lia|exact J].
Qed.
