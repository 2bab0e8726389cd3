(** Proofs for DhsModel.v. *)
From Coq Require Import Arith ZArith QArith List Bool Lia Lqa.
From Verif Require Import DhsSpec DhsModel.
Import ListNotations.
Local Open Scope nat_scope.
Lemma qlt_true a b : qlt a b = true -> (a < b)%Q.
Proof. unfold qlt. rewrite negb_true_iff. intro H. apply Qnot_le_lt. intro K. apply Qle_bool_iff in K. congruence. Qed.
Lemma qlt_false a b : qlt a b = false -> (b <= a)%Q.
Proof. unfold qlt. rewrite negb_false_iff. intro H. now apply Qle_bool_iff. Qed.
Lemma qle_false a b : Qle_bool a b = false -> (b < a)%Q.
Proof. intro H. apply Qnot_le_lt. intro K. apply Qle_bool_iff in K. congruence. Qed.
(** ** running against a function *)
Fixpoint ev {A} (g : point -> Q) (p : prog A) : A * list point := match p with Ret a => (a, []) | Ask x k => let '(a, l) := ev g (k (g x)) in (a, x :: l) end.
Lemma ev_bind {A B} g (p : prog A) (k : A -> prog B) : ev g (bind p k) = (let '(a, l) := ev g p in let '(b, l') := ev g (k a) in (b, l ++ l')).
Proof.
  induction p as [a|x c IH]; simpl; [destruct (ev g (k a)); auto|]. rewrite IH. destruct (ev g (c (g x))) as [a l]. destruct (ev g (k a)). auto.
Qed.
Lemma run_ev {A} g (done : A -> answer) (p : prog A) : forall a xs, ev g p = (a, xs) ->
  (forall i, i < length xs -> run p (map g (firstn i xs)) done = Evaluate (nth i xs [])) /\ (forall more, run p (map g xs ++ more) done = done a).
Proof.
  induction p as [a|x c IH]; intros a' xs H; simpl in H.
  - inversion H. subst. split; [intros i Hi; simpl in Hi; lia|]. auto.
  - destruct (ev g (c (g x))) as [b l] eqn:E. inversion H. subst. destruct (IH _ _ _ E) as [H1 H2]. split.
    + intros [|i] Hi; simpl; auto. apply H1. simpl in Hi. lia.
    + intro more. simpl. apply H2.
Qed.
Definition is_result (a : answer) : Prop := match a with Result _ _ _ => True | _ => False end.
Lemma follows_spec {A} g (done : A -> answer) (p : prog A) a xs : (forall a, is_result (done a)) -> ev g p = (a, xs) ->
  forall im ys, follows (fun im => run p im done) g im ys -> exists i, i <= length xs /\ ys = firstn i xs /\ im = map g (firstn i xs).
Proof.
  intros HD E im ys H. destruct (run_ev g done p a xs E) as [H1 H2]. induction H as [|im ys x H IH Hx].
  - exists 0. repeat split; auto. lia.
  - destruct IH as [i [Hi [Ey Eim]]]. subst. destruct (Nat.eq_dec i (length xs)) as [ -> |N].
    + rewrite firstn_all in Hx. specialize (H2 []). rewrite app_nil_r in H2. rewrite H2 in Hx. specialize (HD a). rewrite Hx in HD. destruct HD.
    + rewrite (H1 i ltac:(lia)) in Hx. inversion Hx. subst x. exists (S i). split; [lia|].
      assert (K : firstn (S i) xs = firstn i xs ++ [nth i xs []]).
      { clear - Hi N. assert (i < length xs) by lia. clear Hi N. revert i H. induction xs as [|b xs IH]; intros [|i] H; simpl in *; try lia; auto. f_equal. apply IH. lia. }
      rewrite K, map_app. auto.
Qed.
Lemma follows_all {A} g (done : A -> answer) (p : prog A) a xs : ev g p = (a, xs) -> follows (fun im => run p im done) g (map g xs) xs.
Proof.
  intro E. destruct (run_ev g done p a xs E) as [H1 _].
  assert (K : forall i, i <= length xs -> follows (fun im => run p im done) g (map g (firstn i xs)) (firstn i xs)).
  { induction i as [|i IH]; intro Hi; [constructor|].
    assert (K : firstn (S i) xs = firstn i xs ++ [nth i xs []]).
    { clear - Hi. revert i Hi. induction xs as [|b xs IH]; intros [|i] H; simpl in *; try lia; auto. f_equal. apply IH. lia. }
    rewrite K, map_app. simpl. constructor; [apply IH; lia|]. apply H1. lia. }
  specialize (K (length xs) (le_n _)). now rewrite firstn_all in K.
Qed.
Lemma run_more {A} (done : A -> answer) (p : prog A) : (forall a, is_result (done a)) -> forall im more, is_result (run p im done) -> run p (im ++ more) done = run p im done.
Proof. intros HD. induction p as [a|x c IH]; intros [|y im] more H; simpl in *; auto. destruct H. Qed.
(** ** reasoning about a program run against a function *)
Section G.
Variable g : point -> Q.
Definition wp {A} (p : prog A) (A0 : list point) (Post : A -> list point -> Prop) : Prop := let '(a, l) := ev g p in Post a (A0 ++ l).
Lemma wp_ret {A} (a : A) A0 (Post : A -> list point -> Prop) : Post a A0 -> wp (Ret a) A0 Post.
Proof. unfold wp. simpl. now rewrite app_nil_r. Qed.
Lemma wp_ask {A} x (k : Q -> prog A) A0 (Post : A -> list point -> Prop) : wp (k (g x)) (A0 ++ [x]) Post -> wp (Ask x k) A0 Post.
Proof. unfold wp. simpl. destruct (ev g (k (g x))) as [a l]. now rewrite <- app_assoc. Qed.
Lemma wp_bind {A B} (p : prog A) (k : A -> prog B) A0 (Mid : A -> list point -> Prop) (Post : B -> list point -> Prop) : wp p A0 Mid -> (forall a A1, Mid a A1 -> wp (k a) A1 Post) -> wp (bind p k) A0 Post.
Proof.
  unfold wp. rewrite ev_bind. destruct (ev g p) as [a l]. intros H1 H2. specialize (H2 _ _ H1). destruct (ev g (k a)) as [b l']. now rewrite app_assoc.
Qed.
(** ** the invariant: the first smallest value is a value of the function, at a requested point, and no requested point is better *)
Definition inv (n : nat) (s : simplex) (A : list point) : Prop :=
  length (sv s) = S n /\ length (sf s) = S n /\ exists m, first_min (sf s) m /\ nth m (sf s) 0%Q = g (nth m (sv s) []) /\ In (nth m (sv s) []) A /\ forall x, In x A -> (nth m (sf s) 0 <= g x)%Q.
Lemma first_min_unique f a b : first_min f a -> first_min f b -> a = b.
Proof.
  intros [A1 [A2 A3]] [B1 [B2 B3]]. destruct (lt_eq_lt_dec a b) as [[H|H]|H]; auto; exfalso.
  - specialize (B3 _ H). specialize (A2 _ B1). lra.
  - specialize (A3 _ H). specialize (B2 _ A1). lra.
Qed.
Lemma set_nth_len {A} (l : list A) : forall k x, length (set_nth l k x) = length l.
Proof. induction l as [|y l IH]; intros [|k] x; simpl; auto. Qed.
Lemma nth_set {A} (l : list A) : forall k x i d, k < length l -> nth i (set_nth l k x) d = if i =? k then x else nth i l d.
Proof. induction l as [|y l IH]; intros [|k] x [|i] d H; simpl in *; try lia; auto. rewrite IH by lia. destruct (i =? k); auto. Qed.
(** putting a point with its value in place of vertex [i] *)
Lemma inv_upd n s A i x m (v' : list point) : inv n s A -> first_min (sf s) m -> i <= n -> (i <> m \/ (g x <= F s m)%Q) ->
  length v' = S n -> nth i v' [] = x -> (forall j, j <> i -> nth j v' [] = nth j (sv s) []) -> inv n (mksx v' (set_nth (sf s) i (g x))) (A ++ [x]).
Proof.
  intros [L1 [L2 [m' [M [AC [IN MIN]]]]]] M' Hi C Lv Vi Vj. assert (m' = m) by (eapply first_min_unique; eauto). subst m'. clear M'. unfold F in C.
  destruct M as [M1 [M2 M3]]. unfold inv. cbn [sv sf]. rewrite set_nth_len. split; [exact Lv|]. split; [exact L2|].
  assert (NS : forall j, nth j (set_nth (sf s) i (g x)) 0%Q = if j =? i then g x else nth j (sf s) 0%Q) by (intro j; apply nth_set; lia).
  destruct (Qlt_le_dec (g x) (nth m (sf s) 0%Q)) as [K|K].
  - (* a new minimum *) exists i. split; [|split; [|split]].
    + split; [rewrite set_nth_len; lia|]. split; intros j Hj; rewrite !NS, Nat.eqb_refl; destruct (j =? i) eqn:E; try lra.
      * rewrite set_nth_len in Hj. specialize (M2 j ltac:(lia)). lra.
      * apply Nat.eqb_eq in E. lia.
      * specialize (M2 j ltac:(lia)). lra.
    + rewrite NS, Nat.eqb_refl. now rewrite Vi.
    + rewrite Vi. apply in_or_app. right. now left.
    + intros z Hz. rewrite NS, Nat.eqb_refl. apply in_app_or in Hz. destruct Hz as [Hz|[ <- |[]]]; [apply MIN in Hz; lra|lra].
  - destruct (Nat.eq_dec i m) as [ -> |N].
    + assert (EQ : (g x == nth m (sf s) 0)%Q) by (destruct C; [congruence|lra]). exists m. split; [|split; [|split]].
      * split; [rewrite set_nth_len; lia|]. split; intros j Hj; rewrite !NS, Nat.eqb_refl; destruct (j =? m) eqn:E; try lra.
        -- rewrite set_nth_len in Hj. specialize (M2 j Hj). lra.
        -- apply Nat.eqb_eq in E. lia.
        -- specialize (M3 j Hj). lra.
      * rewrite NS, Nat.eqb_refl. now rewrite Vi.
      * rewrite Vi. apply in_or_app. right. now left.
      * intros z Hz. rewrite NS, Nat.eqb_refl. apply in_app_or in Hz. destruct Hz as [Hz|[ <- |[]]]; [apply MIN in Hz; lra|lra].
    + destruct (Qlt_le_dec (nth m (sf s) 0%Q) (g x)) as [K2|K2]; [|destruct (Nat.lt_ge_cases i m) as [K3|K3]].
      * (* not a minimum *) exists m. assert (E0 : m =? i = false) by (apply Nat.eqb_neq; congruence). split; [|split; [|split]].
        -- split; [rewrite set_nth_len; lia|]. split; intros j Hj; rewrite !NS, E0; destruct (j =? i) eqn:E; try lra.
           ++ rewrite set_nth_len in Hj. apply M2. lia.
           ++ apply M3. lia.
        -- rewrite NS, E0. rewrite Vj by congruence. exact AC.
        -- rewrite Vj by congruence. apply in_or_app. now left.
        -- intros z Hz. rewrite NS, E0. apply in_app_or in Hz. destruct Hz as [Hz|[ <- |[]]]; [apply MIN in Hz; lra|lra].
      * (* a tie before *) exists i. split; [|split; [|split]].
        -- split; [rewrite set_nth_len; lia|]. split; intros j Hj; rewrite !NS, Nat.eqb_refl; destruct (j =? i) eqn:E; try lra.
           ++ rewrite set_nth_len in Hj. specialize (M2 j ltac:(lia)). lra.
           ++ apply Nat.eqb_eq in E. lia.
           ++ specialize (M3 j ltac:(lia)). lra.
        -- rewrite NS, Nat.eqb_refl. now rewrite Vi.
        -- rewrite Vi. apply in_or_app. right. now left.
        -- intros z Hz. rewrite NS, Nat.eqb_refl. apply in_app_or in Hz. destruct Hz as [Hz|[ <- |[]]]; [apply MIN in Hz; lra|lra].
      * (* a tie behind *) exists m. assert (E0 : m =? i = false) by (apply Nat.eqb_neq; congruence). split; [|split; [|split]].
        -- split; [rewrite set_nth_len; lia|]. split; intros j Hj; rewrite !NS, E0; destruct (j =? i) eqn:E; try lra.
           ++ rewrite set_nth_len in Hj. apply M2. lia.
           ++ apply Nat.eqb_eq in E. lia.
           ++ apply M3. lia.
        -- rewrite NS, E0. rewrite Vj by congruence. exact AC.
        -- rewrite Vj by congruence. apply in_or_app. now left.
        -- intros z Hz. rewrite NS, E0. apply in_app_or in Hz. destruct Hz as [Hz|[ <- |[]]]; [apply MIN in Hz; lra|lra].
Qed.
Lemma inv_set n s A i x m : inv n s A -> first_min (sf s) m -> i <= n -> (i <> m \/ (g x <= F s m)%Q) -> inv n (setVF s i x (g x)) (A ++ [x]).
Proof.
  intros I M Hi C. pose proof I as [L1 _]. apply (inv_upd n s A i x m); auto.
  - now rewrite set_nth_len.
  - rewrite nth_set by lia. now rewrite Nat.eqb_refl.
  - intros j Hj. rewrite nth_set by lia. apply Nat.eqb_neq in Hj. now rewrite Hj.
Qed.
(** recomputing the value of a vertex *)
Lemma inv_reeval n s A i : inv n s A -> i <= n -> inv n (mksx (sv s) (set_nth (sf s) i (g (nth i (sv s) [])))) (A ++ [nth i (sv s) []]).
Proof.
  intros I Hi. pose proof I as [L1 [L2 [m [M [AC [IN MIN]]]]]]. apply (inv_upd n s A i (nth i (sv s) []) m); auto.
  destruct (Nat.eq_dec i m) as [ -> |N]; [right|now left]. unfold F. rewrite AC. lra.
Qed.
Lemma inv_add n s A x m : inv n s A -> first_min (sf s) m -> (F s m <= g x)%Q -> inv n s (A ++ [x]).
Proof.
  intros [L1 [L2 [m' [M [AC [IN MIN]]]]]] M' H. assert (m' = m) by (eapply first_min_unique; eauto). subst m'. split; auto. split; auto. exists m. split; auto. split; auto. split; [apply in_or_app; now left|].
  intros z Hz. apply in_app_or in Hz. destruct Hz as [Hz|[ <- |[]]]; auto.
Qed.
Lemma inv_perm n s A B : inv n s A -> (forall x, In x A <-> In x B) -> inv n s B.
Proof. intros [L1 [L2 [m [M [AC [IN MIN]]]]]] H. split; auto. split; auto. exists m. split; auto. split; auto. split; [now apply H|]. intros x Hx. apply MIN. now apply H. Qed.
(** ** the searches *)
Lemma find_vs_spec n s : length (sf s) = S n -> first_min (sf s) (find_vs n s).
Proof.
  intro L. unfold find_vs.
  assert (K : forall k, k <= n -> let m := fold_left (fun vs j => if qlt (F s j) (F s vs) then j else vs) (seq 0 (S k)) 0 in
    m <= k /\ (forall j, j <= k -> (F s m <= F s j)%Q) /\ (forall j, j < m -> (F s m < F s j)%Q)).
  { induction k as [|k IH]; intro Hk.
    - cbn. destruct (qlt (F s 0) (F s 0)) eqn:E; (split; [lia|]; split; intros j Hj; [replace j with 0 by lia; lra|lia]).
    - specialize (IH ltac:(lia)). rewrite seq_S, fold_left_app. cbn [fold_left]. replace (0 + S k) with (S k) by lia. set (m := fold_left _ (seq 0 (S k)) 0) in *. destruct IH as [I1 [I2 I3]].
      destruct (qlt (F s (S k)) (F s m)) eqn:E.
      + apply qlt_true in E. split; [lia|]. split; intros j Hj.
        * destruct (Nat.eq_dec j (S k)) as [ -> |N]; [lra|]. specialize (I2 j ltac:(lia)). lra.
        * specialize (I2 j ltac:(lia)). lra.
      + apply qlt_false in E. split; [lia|]. split; auto. intros j Hj. destruct (Nat.eq_dec j (S k)) as [ -> |N]; [lra|]. apply I2. lia. }
  destruct (K n (le_n _)) as [K1 [K2 K3]]. split; [lia|]. split; auto. intros j Hj. apply K2. lia.
Qed.
Lemma find_vg_spec n s : length (sf s) = S n -> first_max (sf s) (find_vg n s).
Proof.
  intro L. unfold find_vg.
  assert (K : forall k, k <= n -> let m := fold_left (fun vg j => if qlt (F s vg) (F s j) then j else vg) (seq 0 (S k)) 0 in
    m <= k /\ (forall j, j <= k -> (F s j <= F s m)%Q) /\ (forall j, j < m -> (F s j < F s m)%Q)).
  { induction k as [|k IH]; intro Hk.
    - cbn. destruct (qlt (F s 0) (F s 0)) eqn:E; (split; [lia|]; split; intros j Hj; [replace j with 0 by lia; lra|lia]).
    - specialize (IH ltac:(lia)). rewrite seq_S, fold_left_app. cbn [fold_left]. replace (0 + S k) with (S k) by lia. set (m := fold_left _ (seq 0 (S k)) 0) in *. destruct IH as [I1 [I2 I3]].
      destruct (qlt (F s m) (F s (S k))) eqn:E.
      + apply qlt_true in E. split; [lia|]. split; intros j Hj.
        * destruct (Nat.eq_dec j (S k)) as [ -> |N]; [lra|]. specialize (I2 j ltac:(lia)). lra.
        * specialize (I2 j ltac:(lia)). lra.
      + apply qlt_false in E. split; [lia|]. split; auto. intros j Hj. destruct (Nat.eq_dec j (S k)) as [ -> |N]; [lra|]. apply I2. lia. }
  destruct (K n (le_n _)) as [K1 [K2 K3]]. split; [lia|]. split; auto. intros j Hj. apply K2. lia.
Qed.
(** the second largest: the start value, or between it and the largest *)
Lemma find_vh_spec n s vs vg : vs <= n -> let vh := find_vh n s vs vg in vh <= n /\ (vh = vs \/ (F s vh < F s vg)%Q /\ (F s vs < F s vh)%Q) /\ forall j, j <= n -> (F s j < F s vg)%Q -> (F s j <= F s vh)%Q.
Proof.
  intro Hvs. unfold find_vh.
  assert (K : forall k, k <= n -> let h := fold_left (fun vh j => if qlt (F s vh) (F s j) && qlt (F s j) (F s vg) then j else vh) (seq 0 (S k)) vs in
    h <= n /\ (h = vs \/ (F s h < F s vg)%Q /\ (F s vs < F s h)%Q) /\ forall j, j <= k -> (F s j < F s vg)%Q -> (F s j <= F s h)%Q).
  { assert (ST : forall h j, h <= n -> (h = vs \/ (F s h < F s vg)%Q /\ (F s vs < F s h)%Q) -> j <= n -> let h' := if qlt (F s h) (F s j) && qlt (F s j) (F s vg) then j else h in
      h' <= n /\ (h' = vs \/ (F s h' < F s vg)%Q /\ (F s vs < F s h')%Q) /\ (F s h <= F s h')%Q /\ ((F s j < F s vg)%Q -> (F s j <= F s h')%Q)).
    { intros h j H1 H2 Hj. destruct (qlt (F s h) (F s j)) eqn:E1; cbn [andb]; [destruct (qlt (F s j) (F s vg)) eqn:E2|].
      - apply qlt_true in E1, E2. split; auto. split; [right; split; auto; destruct H2 as [ -> |H2]; lra|]. split; lra.
      - apply qlt_false in E2. split; auto. split; auto. split; lra.
      - apply qlt_false in E1. split; auto. split; auto. split; lra. }
    induction k as [|k IH]; intro Hk.
    - cbn [seq fold_left]. destruct (ST vs 0 Hvs ltac:(auto) ltac:(lia)) as [A [B [C D]]]. split; auto. split; auto. intros j Hj. replace j with 0 by lia. auto.
    - specialize (IH ltac:(lia)). rewrite seq_S, fold_left_app. cbn [fold_left]. replace (0 + S k) with (S k) by lia. set (h := fold_left _ (seq 0 (S k)) vs) in *. destruct IH as [I1 [I2 I3]].
      destruct (ST h (S k) I1 I2 Hk) as [A [B [C D]]]. split; auto. split; auto. intros j Hj Hl. destruct (Nat.eq_dec j (S k)) as [ -> |N]; [auto|]. specialize (I3 j ltac:(lia) Hl). lra. }
  apply (K n (le_n _)).
Qed.
Lemma F_set s i x y j : i < length (sf s) -> F (setVF s i x y) j = if j =? i then y else F s j.
Proof. intro H. unfold F, setVF. cbn [sf]. now apply nth_set. Qed.
(** ** an iteration keeps the invariant *)
Lemma iteration_inv n s A0 : inv n s A0 -> wp (iteration n s) A0 (fun s' A1 => inv n s' A1).
Proof.
  intro I. pose proof I as [L1 [L2 _]]. unfold iteration.
  pose proof (find_vs_spec n s L2) as VS. pose proof (find_vg_spec n s L2) as VG. set (vs := find_vs n s) in *. set (vg := find_vg n s) in *.
  assert (Hvs : vs <= n) by (destruct VS; lia). assert (Hvg : vg <= n) by (destruct VG; lia).
  pose proof (find_vh_spec n s vs vg Hvs) as VH. cbv zeta in VH. set (vh := find_vh n s vs vg) in *. destruct VH as [Hvh [VH1 _]].
  assert (MINs : forall j, j <= n -> (F s vs <= F s j)%Q) by (intros j Hj; apply (proj1 (proj2 VS)); lia).
  set (vm := centroid n s vg). set (vr := reflect n vm (nth vg (sv s) [])).
  apply wp_ask. set (fr := g vr).
  (* the state after the reflection and the expansion *)
  set (s1 := if qlt fr (F s vh) && Qle_bool (F s vs) fr then setVF s vg vr fr else s).
  assert (Mid : wp (if qlt fr (F s1 vs)
        then let ve := expand n vm vr in Ask ve (fun fe => Ret (if qlt fe fr then setVF s1 vg ve fe else setVF s1 vg vr fr))
        else Ret s1) (A0 ++ [vr]) (fun s2 A2 => inv n s2 A2 /\ ((F s2 vh <= fr)%Q -> first_min (sf s2) vs))).
  { destruct (qlt fr (F s vh)) eqn:E1; cbn [andb] in s1.
    - apply qlt_true in E1. destruct (Qle_bool (F s vs) fr) eqn:E2.
      + (* accepted *) apply Qle_bool_iff in E2. assert (NH : vh <> vs) by (intro E; rewrite E in E1; lra). destruct VH1 as [VH1|[VH1 VH2]]; [congruence|].
        assert (NG : vg <> vs) by (intro E; rewrite E in VH1; lra). assert (NGH : vh <> vg) by (intro E; rewrite E in VH1; lra).
        assert (FS : F s1 vs = F s vs) by (unfold s1; rewrite F_set by lia; replace (vs =? vg) with false by (symmetry; apply Nat.eqb_neq; congruence); auto).
        rewrite FS. destruct (qlt fr (F s vs)) eqn:E3; [apply qlt_true in E3; lra|]. apply wp_ret. split.
        * unfold s1, fr. apply (inv_set n s A0 vg vr vs); auto.
        * intro H. exfalso. unfold s1 in H. rewrite F_set in H by lia. replace (vh =? vg) with false in H by (symmetry; apply Nat.eqb_neq; congruence). lra.
      + (* a new minimum *) apply qle_false in E2. subst s1. destruct (qlt fr (F s vs)) eqn:E3; [|apply qlt_false in E3; lra]. clear E3. cbv zeta.
        apply wp_ask. set (ve := expand n vm vr). set (fe := g ve). apply wp_ret.
        assert (R : forall x y B, (y < F s vs)%Q -> (y <= fr)%Q -> inv n (setVF s vg x y) B -> inv n (setVF s vg x y) B /\ ((F (setVF s vg x y) vh <= fr)%Q -> first_min (sf (setVF s vg x y)) vs)).
        { intros x y B Hy Hy2 HI. split; auto. intro H. rewrite F_set in H by lia. destruct (vh =? vg) eqn:E.
          - apply Nat.eqb_eq in E. assert (vg = vs) by (destruct VH1 as [VH1|[VH1 _]]; [congruence|rewrite E in VH1; lra]). subst x y || idtac.
            destruct HI as [_ [HL _]]. split; [rewrite HL; lia|]. split; intros j Hj; change (nth vs (sf (setVF s vg x y)) 0%Q) with (F (setVF s vg x y) vs); change (nth j (sf (setVF s vg x y)) 0%Q) with (F (setVF s vg x y) j); rewrite !F_set by lia.
            + rewrite H0, Nat.eqb_refl. destruct (j =? vs) eqn:E3; [lra|]. rewrite HL in Hj. specialize (MINs j ltac:(lia)). lra.
            + rewrite H0, Nat.eqb_refl. destruct (j =? vs) eqn:E3; [apply Nat.eqb_eq in E3; lia|]. specialize (MINs j ltac:(lia)). lra.
          - exfalso. specialize (MINs vh Hvh). lra. }
        destruct (qlt fe fr) eqn:E4.
        * apply qlt_true in E4. apply R; [lra|lra|]. unfold fe. apply (inv_perm n _ ((A0 ++ [ve]) ++ [vr])).
          -- assert (J : inv n (setVF s vg ve (g ve)) (A0 ++ [ve])) by (apply (inv_set n s A0 vg ve vs); auto; right; unfold fe in E4; lra).
             pose proof J as [_ [HL _]]. assert (FM : first_min (sf (setVF s vg ve (g ve))) vg).
             { split; [rewrite HL; lia|]. split; intros j Hj; change (nth vg (sf (setVF s vg ve (g ve))) 0%Q) with (F (setVF s vg ve (g ve)) vg); change (nth j (sf (setVF s vg ve (g ve))) 0%Q) with (F (setVF s vg ve (g ve)) j); rewrite !F_set by lia; rewrite Nat.eqb_refl.
               - destruct (j =? vg); [lra|]. rewrite HL in Hj. specialize (MINs j ltac:(lia)). unfold fe in E4. lra.
               - destruct (j =? vg) eqn:E5; [apply Nat.eqb_eq in E5; lia|]. specialize (MINs j ltac:(lia)). unfold fe in E4. lra. }
             apply (inv_add n _ _ vr vg J FM). rewrite F_set by lia. rewrite Nat.eqb_refl. unfold fe, fr in E4. lra.
          -- intro x. rewrite !in_app_iff. simpl. tauto.
        * apply qlt_false in E4. apply R; [lra|lra|].
          assert (J : inv n (setVF s vg vr (g vr)) (A0 ++ [vr])) by (apply (inv_set n s A0 vg vr vs); auto; right; unfold fr in E2; lra).
          pose proof J as [_ [HL _]]. assert (FM : first_min (sf (setVF s vg vr (g vr))) vg).
          { split; [rewrite HL; lia|]. split; intros j Hj; change (nth vg (sf (setVF s vg vr (g vr))) 0%Q) with (F (setVF s vg vr (g vr)) vg); change (nth j (sf (setVF s vg vr (g vr))) 0%Q) with (F (setVF s vg vr (g vr)) j); rewrite !F_set by lia; rewrite Nat.eqb_refl.
            - destruct (j =? vg); [lra|]. rewrite HL in Hj. specialize (MINs j ltac:(lia)). unfold fr in E2. lra.
            - destruct (j =? vg) eqn:E5; [apply Nat.eqb_eq in E5; lia|]. specialize (MINs j ltac:(lia)). unfold fr in E2. lra. }
          apply (inv_add n _ _ ve vg J FM). rewrite F_set by lia. rewrite Nat.eqb_refl. unfold fe, fr in E4. lra.
    - apply qlt_false in E1. subst s1. specialize (MINs vh Hvh). destruct (qlt fr (F s vs)) eqn:E3; [apply qlt_true in E3; lra|]. apply qlt_false in E3. apply wp_ret. split; auto.
      apply (inv_add n s A0 vr vs); auto. }
  eapply wp_bind; [exact Mid|]. cbv beta. clear Mid s1. intros s2 A2 [I2 C2]. pose proof I2 as [K1 [K2 _]].
  destruct (Qle_bool (F s2 vh) fr) eqn:E; [|apply wp_ret; auto]. apply Qle_bool_iff in E. specialize (C2 E).
  cbv zeta. match goal with |- wp (Ask ?e _) _ _ => set (vc := e) end. apply wp_ask. set (fc := g vc).
  assert (MIN2 : forall j, j <= n -> (F s2 vs <= F s2 j)%Q) by (intros j Hj; apply (proj1 (proj2 C2)); lia).
  destruct (qlt fc (F s2 vg)) eqn:E2.
  - apply qlt_true in E2. apply wp_ret. unfold fc. apply (inv_set n s2 A2 vg vc vs); auto. destruct (Nat.eq_dec vg vs) as [ -> |N]; [right; unfold fc in E2; lra|now left].
  - apply qlt_false in E2.
    assert (I3 : inv n (shrink n s2 vs) (A2 ++ [vc])).
    { specialize (MIN2 vg Hvg). assert (J : inv n s2 (A2 ++ [vc])) by (apply (inv_add n s2 A2 vc vs); auto; fold fc; lra).
      destruct J as [_ [_ [m [M [AC [IN MN]]]]]]. assert (m = vs) by (eapply first_min_unique; eauto). subst m.
      assert (NV : nth vs (sv (shrink n s2 vs)) [] = nth vs (sv s2) []).
      { unfold shrink. cbn [sv]. set (f := fun row => if row =? vs then nth row (sv s2) [] else map (fun j => (V s2 vs j + (V s2 row j - V s2 vs j) / (2 # 1))%Q) (seq 0 n)).
        rewrite (nth_indep _ [] (f 0)) by (rewrite map_length, seq_length; lia). rewrite map_nth, seq_nth by lia. unfold f. rewrite Nat.add_0_l, Nat.eqb_refl. auto. }
      split; [unfold shrink; cbn [sv]; now rewrite map_length, seq_length|]. split; [exact K2|]. exists vs. change (sf (shrink n s2 vs)) with (sf s2). rewrite NV. auto. }
    set (s3 := shrink n s2 vs) in *. apply wp_ask. apply wp_ask. apply wp_ret.
    pose proof (inv_reeval n s3 _ vg I3 Hvg) as I4. set (s4 := mksx (sv s3) (set_nth (sf s3) vg (g (nth vg (sv s3) [])))) in *.
    exact (inv_reeval n s4 _ vh I4 Hvh).
Qed.
Lemma loop_inv n ftol todo : forall itr s A0, inv n s A0 -> wp (loop n ftol todo itr s) A0 (fun r A1 => inv n (fst r) A1).
Proof.
  induction todo as [|todo IH]; intros itr s A0 I; cbn [loop]; [now apply wp_ret|].
  eapply wp_bind; [now apply iteration_inv|]. cbv beta. intros s' A1 I'. destruct (converged n ftol s'); [now apply wp_ret|]. now apply IH.
Qed.
Lemma ask_all_ev v : ev g (ask_all v) = (map g v, v).
Proof. induction v as [|x v IH]; simpl; auto. rewrite ev_bind, IH. simpl. rewrite app_nil_r. auto. Qed.
Lemma initial_length n pn qn start : length (initial n pn qn start) = S n.
Proof. unfold initial. now rewrite map_length, seq_length. Qed.
Lemma initial_inv n pn qn start : inv n (mksx (initial n pn qn start) (map g (initial n pn qn start))) (initial n pn qn start).
Proof.
  set (v := initial n pn qn start). assert (L : length v = S n) by apply initial_length. unfold inv. cbn [sv sf]. rewrite map_length. split; auto. split; auto.
  pose proof (find_vs_spec n (mksx v (map g v))) as M. cbn [sf] in M. rewrite map_length in M. specialize (M L). set (m := find_vs n (mksx v (map g v))) in *.
  assert (NM : forall i, i <= n -> nth i (map g v) 0%Q = g (nth i v [])).
  { intros i Hi. rewrite (nth_indep _ 0%Q (g [])) by (rewrite map_length; lia). apply map_nth. }
  assert (Hm : m <= n) by (destruct M as [M1 _]; clear - M1 L; rewrite ?map_length in M1; unfold point in *; lia).
  exists m. split; auto. split; [now apply NM|]. split; [apply nth_In; lia|]. intros x Hx. apply (In_nth _ _ []) in Hx. destruct Hx as [i [Hi E]]. assert (EQ : nth i (map g v) 0%Q = g x) by (rewrite NM by (unfold point in *; lia); f_equal; exact E). rewrite <- EQ. apply M. rewrite map_length. exact Hi.
Qed.
Lemma program_spec max_it n ftol pn qn start x y itr xs : ev g (program max_it n ftol pn qn start) = ((x, y, itr), xs) ->
  y = g x /\ In x xs /\ (forall z, In z xs -> (y <= g z)%Q) /\ exists r, xs = initial n pn qn start ++ r.
Proof.
  unfold program. rewrite ev_bind, ask_all_ev, ev_bind. pose proof (loop_inv n ftol max_it 1 _ _ (initial_inv n pn qn start)) as W. unfold wp in W.
  set (v := initial n pn qn start) in *. destruct (ev g (loop n ftol max_it 1 (mksx v (map g v)))) as [[s it] l]. cbn [fst snd ev]. cbn [fst] in W.
  intro H. injection H as Ex Ey Ei El. destruct W as [W1 [W2 [m [M [AC [IN MIN]]]]]].
  assert (find_vs n s = m) by (eapply first_min_unique; [apply find_vs_spec; auto|auto]). rewrite H in *. subst x y it. split; auto. split; [|split].
  - subst xs. rewrite app_assoc. apply (in_or_app (v ++ l) [nth m (sv s) []]). right. now left.
  - intros z Hz. subst xs. rewrite app_assoc in Hz. apply (in_app_or (v ++ l) [nth m (sv s) []]) in Hz. rewrite <- AC. destruct Hz as [Hz|[ <- |[]]]; [now apply MIN|]. rewrite AC. lra.
  - exists (l ++ [nth m (sv s) []]). subst xs. reflexivity.
Qed.
(** ** the number of requests *)
Lemma iteration_count n s : 1 <= length (snd (ev g (iteration n s))) <= 5.
Proof.
  assert (A1 : forall (b : bool) (x : point) (k : Q -> simplex) s1, length (snd (ev g (if b then Ask x (fun y => Ret (k y)) else Ret s1))) <= 1) by (intros [|] x k s1; simpl; lia).
  assert (A2 : forall (b : bool) (x : point) (c : Q -> bool) (r : Q -> simplex) (xg : point) (xh : Q -> point) (q : Q -> Q -> simplex) s2,
    length (snd (ev g (if b then Ask x (fun y => if c y then Ret (r y) else Ask xg (fun yg => Ask (xh yg) (fun yh => Ret (q yg yh)))) else Ret s2))) <= 3).
  { intros [|] x c r xg xh q s2; cbn [ev]; [|simpl; lia]. destruct (c (g x)); simpl; lia. }
  unfold iteration. cbv zeta. cbn [ev]. rewrite ev_bind.
  match goal with |- context [ev g (if ?b then Ask ?x (fun fe => Ret (@?k fe)) else Ret ?s1)] => specialize (A1 b x k s1); destruct (ev g (if b then Ask x (fun fe => Ret (k fe)) else Ret s1)) as [s2 l] end.
  match goal with |- context [ev g (if ?b then ?p else Ret s2)] => assert (A3 : length (snd (ev g (if b then p else Ret s2))) <= 3) by apply A2; destruct (ev g (if b then p else Ret s2)) as [s3 l'] end.
  cbn [snd length] in *. rewrite app_length. lia.
Qed.
Lemma loop_count n ftol todo : forall itr s, length (snd (ev g (loop n ftol todo itr s))) <= 5 * todo /\ itr <= snd (fst (ev g (loop n ftol todo itr s))) <= itr + todo.
Proof.
  induction todo as [|todo IH]; intros itr s; [simpl; lia|]. cbn [loop]. rewrite ev_bind. pose proof (iteration_count n s) as C.
  destruct (ev g (iteration n s)) as [s' l]. cbn [snd] in C. destruct (converged n ftol s').
  - cbn. rewrite app_nil_r. lia.
  - specialize (IH (S itr) s'). destruct (ev g (loop n ftol todo (S itr) s')) as [r l']. cbn [fst snd] in *. rewrite app_length. lia.
Qed.
Lemma program_count max_it n ftol pn qn start : length (snd (ev g (program max_it n ftol pn qn start))) <= n + 2 + 5 * max_it.
Proof.
  unfold program. rewrite ev_bind, ask_all_ev, ev_bind. set (v := initial n pn qn start). pose proof (proj1 (loop_count n ftol max_it 1 (mksx v (map g v)))) as C.
  destruct (ev g (loop n ftol max_it 1 (mksx v (map g v)))) as [r l]. cbn [ev snd] in *. rewrite !app_length. cbn [length]. assert (L : length v = S n) by apply initial_length. unfold point in *. lia.
Qed.
End G.
