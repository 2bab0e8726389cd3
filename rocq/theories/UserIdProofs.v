From Coq Require Import Ascii String Arith List Lia.
From Coq Require Import DecimalString DecimalNat.
From Verif Require Import AMap UserIdSpec UserIdModel.
Import ListNotations.
Open Scope nat_scope.

Lemma decimal_inj : forall a b, decimal a = decimal b -> a = b.
Proof.
  intros a b H. unfold decimal in H. apply (f_equal NilEmpty.uint_of_string) in H. rewrite !NilEmpty.usu in H. inversion H.
  apply (f_equal Nat.of_uint) in H1. now rewrite !Unsigned.of_to in H1.
Qed.

(** what the map knows after a history *)
Definition agrees (h : list (call * answer)) (m : umap) : Prop :=
  awf m /\ length m = length (names_in_order h) /\ forall u, match aget string_dec u m with
    | Some i => nth_error (names_in_order h) i = Some u
    | None => ~ In u (names_in_order h) end.
(** histories whose answers are correct *)
Inductive correct : list (call * answer) -> Prop :=
| right_nil : correct []
| right_id : forall h u i, correct h -> (forall j, nth_error (names_in_order h) j = Some u -> i = j) -> (~ In u (names_in_order h) -> i = length (names_in_order h)) ->
    correct (h ++ [(IdFor u, (u, i))])
| right_gen : forall h n i, correct h -> ~ In (decimal n) (names_in_order h) -> (forall k, k < n -> In (decimal k) (names_in_order h)) -> i = length (names_in_order h) ->
    correct (h ++ [(Gen, (decimal n, i))]).

Lemma nio_in : forall h u, In u (names_in_order h) <-> exists c i, In (c, (u, i)) h.
Proof.
  induction h as [|[c [s j]] h IH]; intro u; simpl.
  - split; [tauto|]. intros (c & i & []).
  - rewrite filter_In, IH. split.
    + intros [->|((c' & i & H) & _)]; [exists c, j; auto|exists c', i; auto].
    + intros (c' & i & [H|H]); [inversion H; auto|]. destruct (string_dec u s) as [->|]; [auto|]. right. split; eauto.
Qed.
Lemma nio_snoc : forall h c u i, names_in_order (h ++ [(c, (u, i))]) = if in_dec string_dec u (names_in_order h) then names_in_order h else names_in_order h ++ [u].
Proof.
  induction h as [|[c0 [s j]] h IH]; intros c u i; [reflexivity|]. cbn [app names_in_order]. rewrite IH.
  destruct (in_dec string_dec u (names_in_order h)) as [I|I].
  - destruct (in_dec string_dec u _) as [J|J]; [reflexivity|]. exfalso. apply J. destruct (string_dec u s) as [->|N]; [simpl; auto|]. right. apply filter_In. split; auto. now destruct (string_dec u s).
  - rewrite filter_app. cbn [filter]. destruct (string_dec u s) as [->|N].
    + rewrite app_nil_r. destruct (in_dec string_dec s _) as [J|J]; [reflexivity|]. exfalso. apply J. simpl; auto.
    + destruct (in_dec string_dec u _) as [J|J]; [|reflexivity]. exfalso. destruct J as [J|J]; [congruence|]. apply filter_In in J. tauto.
Qed.
Lemma nio_nodup : forall h, NoDup (names_in_order h).
Proof.
  induction h as [|[c [s j]] h IH]; simpl; constructor.
  - rewrite filter_In. destruct (string_dec s s); [intros (_ & X); discriminate|congruence].
  - now apply NoDup_filter.
Qed.
Lemma agrees_old : forall h m c u i j, agrees h m -> aget string_dec u m = Some j -> agrees (h ++ [(c, (u, i))]) m.
Proof.
  intros h m c u i j (W & L & A) E. pose proof (A u) as Au. rewrite E in Au. assert (I : In u (names_in_order h)) by (eapply nth_error_In; eauto).
  unfold agrees. rewrite nio_snoc. destruct (in_dec string_dec u (names_in_order h)); [|contradiction]. auto.
Qed.
Lemma agrees_new : forall h m c u i, agrees h m -> aget string_dec u m = None -> agrees (h ++ [(c, (u, i))]) (aset string_dec u (length m) m).
Proof.
  intros h m c u i (W & L & A) E. pose proof (A u) as Au. rewrite E in Au. unfold agrees. rewrite nio_snoc. destruct (in_dec string_dec u (names_in_order h)); [contradiction|].
  split; [now apply aset_wf|]. split; [rewrite aset_length, E, app_length; simpl; lia|]. intro v. rewrite aget_aset. destruct (string_dec v u) as [->|N].
  - rewrite L. rewrite nth_error_app2 by lia. rewrite Nat.sub_diag. reflexivity.
  - specialize (A v). destruct (aget string_dec v m) as [k|].
    + rewrite nth_error_app1; auto. apply nth_error_Some. congruence.
    + rewrite in_app_iff. simpl. intros [X|[X|[]]]; auto.
Qed.

(** the invariant *)
Definition in_cs (s : tstate) : Prop := match s with Idle | Wait _ => False | _ => True end.
Definition tok (C : config) (s : tstate) : Prop :=
  match s with
  | Idle | Wait _ => True
  | Look u => agrees (log C) (smap C)
  | Create u => agrees (log C) (smap C) /\ aget string_dec u (smap C) = None
  | Try n => agrees (log C) (smap C) /\ forall k, k < n -> aget string_dec (decimal k) (smap C) <> None
  | Leave c r => agrees (log C ++ [(c, r)]) (smap C) /\ correct (log C ++ [(c, r)])
  end.
Record inv (C : config) : Prop := {
  i_lock : forall t, in_cs (thr C t) <-> lock C = Some t;
  i_free : lock C = None -> agrees (log C) (smap C);
  i_tok : forall t, tok C (thr C t);
  i_right : correct (log C) }.
Lemma agrees_in : forall h m u, agrees h m -> (aget string_dec u m <> None <-> In u (names_in_order h)).
Proof.
  intros h m u (_ & _ & A). specialize (A u). destruct (aget string_dec u m); split; try congruence; try tauto. intros _. eapply nth_error_In; eauto.
Qed.
Lemma upd_same : forall f t s, upd f t s t = s. Proof. intros. unfold upd. now destruct (Nat.eq_dec t t). Qed.
Lemma upd_other : forall f t s x, x <> t -> upd f t s x = f x. Proof. intros. unfold upd. now destruct (Nat.eq_dec x t). Qed.
(** a step of the lock holder t that keeps the lock *)
Lemma inside : forall C t s' m', inv C -> lock C = Some t -> in_cs s' -> tok {| thr := upd (thr C) t s'; lock := lock C; smap := m'; log := log C |} s' ->
  inv {| thr := upd (thr C) t s'; lock := lock C; smap := m'; log := log C |}.
Proof.
  intros C t s' m' I LK CS TK. destruct I as [I1 I2 I3 I4]. constructor; cbn [thr lock smap log].
  - intro x. destruct (Nat.eq_dec x t) as [->|N]; [rewrite upd_same; tauto|rewrite upd_other by auto; apply I1].
  - rewrite LK. discriminate.
  - intro x. destruct (Nat.eq_dec x t) as [->|N]; [rewrite upd_same; exact TK|rewrite upd_other by auto].
    assert (~ in_cs (thr C x)) by (rewrite I1; congruence). destruct (thr C x); simpl in *; tauto.
  - exact I4.
Qed.
Lemma step_inv : forall t C C', inv C -> step t C C' -> inv C'.
Proof.
  intros t C C' I S. pose proof I as [I1 I2 I3 I4].
  assert (HOLD : forall s, thr C t = s -> in_cs s -> lock C = Some t) by (intros s <- H; now apply I1).
  destruct S as [C c E|C c E L|C u i E F|C u E F|C u E|C n i E F|C n E F|C c r E].
  - constructor; cbn [thr lock smap log]; auto.
    + intro x. destruct (Nat.eq_dec x t) as [->|N]; [rewrite upd_same; rewrite <- I1, E; simpl; tauto|rewrite upd_other by auto; apply I1].
    + intro x. destruct (Nat.eq_dec x t) as [->|N]; [rewrite upd_same; exact Logic.I|rewrite upd_other by auto; exact (I3 x)].
  - constructor; cbn [thr lock smap log]; auto.
    + intro x. destruct (Nat.eq_dec x t) as [->|N]; [rewrite upd_same; destruct c; simpl; tauto|rewrite upd_other by auto]. rewrite I1, L. split; [discriminate|congruence].
    + intro x. destruct (Nat.eq_dec x t) as [->|N].
      * rewrite upd_same. destruct c; simpl; auto. split; auto. intros; lia.
      * rewrite upd_other by auto. assert (~ in_cs (thr C x)) by (rewrite I1; congruence). destruct (thr C x); simpl in *; tauto.
  - assert (LK := HOLD _ E Logic.I). pose proof (I3 t) as T. rewrite E in T. simpl in T. apply inside; auto; simpl; auto.
    split; [eapply agrees_old; eauto|]. destruct T as (_ & _ & A). specialize (A u). rewrite F in A. apply right_id; auto.
    + intros j J. eapply NoDup_nth_error; [apply (nio_nodup (log C))|apply nth_error_Some; congruence|congruence].
    + intro X. exfalso. apply X. eapply nth_error_In; eauto.
  - assert (LK := HOLD _ E Logic.I). pose proof (I3 t) as T. rewrite E in T. simpl in T. apply inside; auto; simpl; auto.
  - assert (LK := HOLD _ E Logic.I). pose proof (I3 t) as T. rewrite E in T. simpl in T. destruct T as (T & F). apply inside; auto; simpl; auto.
    split; [now apply agrees_new|]. destruct T as (_ & L & A). specialize (A u). rewrite F in A. apply right_id; auto.
    intros j J. exfalso. apply A. eapply nth_error_In; eauto.
  - assert (LK := HOLD _ E Logic.I). pose proof (I3 t) as T. rewrite E in T. simpl in T. destruct T as (T & K). apply inside; auto; simpl; auto.
    split; auto. intros k Hk. destruct (Nat.eq_dec k n) as [->|]; [congruence|apply K; lia].
  - assert (LK := HOLD _ E Logic.I). pose proof (I3 t) as T. rewrite E in T. simpl in T. destruct T as (T & K). apply inside; auto; simpl; auto.
    split; [now apply agrees_new|]. apply right_gen; auto.
    + rewrite <- (agrees_in _ (smap C)) by auto. congruence.
    + intros k Hk. rewrite <- (agrees_in _ (smap C)) by auto. apply K; auto.
    + apply T.
  - assert (LK := HOLD _ E Logic.I). pose proof (I3 t) as T. rewrite E in T. simpl in T. destruct T as (T & R). constructor; cbn [thr lock smap log]; auto.
    + intro x. destruct (Nat.eq_dec x t) as [->|N]; [rewrite upd_same; simpl; split; [tauto|discriminate]|rewrite upd_other by auto; rewrite I1, LK; split; congruence].
    + intro x. destruct (Nat.eq_dec x t) as [->|N]; [rewrite upd_same; exact Logic.I|rewrite upd_other by auto].
      assert (~ in_cs (thr C x)) by (rewrite I1; congruence). destruct (thr C x); simpl in *; tauto.
Qed.
Lemma init_inv : inv init.
Proof.
  constructor; simpl; auto.
  - intro t. split; [tauto|discriminate].
  - intros _. split; [constructor|]. split; [reflexivity|]. simpl. auto.
  - constructor.
Qed.
Lemma reach_inv : forall C, reachable C -> inv C.
Proof. induction 1; [apply init_inv|eapply step_inv; eauto]. Qed.

(** ** consequences *)
Lemma nio_app : forall h2 h1, exists x, names_in_order (h1 ++ h2) = names_in_order h1 ++ x.
Proof.
  induction h2 as [|[c [u i]] h2 IH] using rev_ind; intro h1; [exists []; now rewrite !app_nil_r|].
  rewrite app_assoc, nio_snoc. destruct (IH h1) as (x & E). rewrite E. destruct (in_dec string_dec u (names_in_order h1 ++ x)); [eauto|]. exists (x ++ [u]). now rewrite app_assoc.
Qed.
Lemma right_ids : forall h, correct h -> forall c u i, In (c, (u, i)) h -> nth_error (names_in_order h) i = Some u.
Proof.
  induction 1 as [|h u i R IH A B|h n i R IH NI ALL E]; intros c v k I; [destruct I| |].
  - apply in_app_iff in I. rewrite nio_snoc. destruct I as [I|[I|[]]].
    + apply IH in I. destruct (in_dec string_dec u (names_in_order h)); auto. rewrite nth_error_app1; auto. apply nth_error_Some. congruence.
    + inversion I; subst. destruct (in_dec string_dec v (names_in_order h)) as [J|J].
      * apply In_nth_error in J. destruct J as (j & J). rewrite (A j J). exact J.
      * rewrite (B J), nth_error_app2, Nat.sub_diag by lia. reflexivity.
  - apply in_app_iff in I. rewrite nio_snoc. destruct (in_dec string_dec (decimal n) (names_in_order h)); [contradiction|]. destruct I as [I|[I|[]]].
    + apply IH in I. rewrite nth_error_app1; auto. apply nth_error_Some. congruence.
    + inversion I; subst. rewrite nth_error_app2, Nat.sub_diag by lia. reflexivity.
Qed.
Lemma ids_right : forall C, reachable C -> forall c u i, In (c, (u, i)) (log C) -> nth_error (names_in_order (log C)) i = Some u.
Proof. intros C R. apply right_ids, (i_right C (reach_inv C R)). Qed.
Lemma same_iff : forall C, reachable C -> forall c1 u1 i1 c2 u2 i2, In (c1, (u1, i1)) (log C) -> In (c2, (u2, i2)) (log C) -> (u1 = u2 <-> i1 = i2).
Proof.
  intros C R c1 u1 i1 c2 u2 i2 H1 H2. apply (ids_right C R) in H1, H2. split; intro E; subst.
  - eapply NoDup_nth_error; [apply (nio_nodup (log C))|apply nth_error_Some; congruence|congruence].
  - congruence.
Qed.
Lemma asked : forall C, reachable C -> forall u v i, In (IdFor u, (v, i)) (log C) -> v = u.
Proof.
  intros C R. pose proof (i_right C (reach_inv C R)) as H. induction H; intros v w k I; [destruct I| |]; apply in_app_iff in I; destruct I as [I|[I|[]]]; eauto; inversion I; auto.
Qed.
Lemma right_prefix : forall h, correct h -> forall h1 e h2, h = h1 ++ e :: h2 -> correct (h1 ++ [e]).
Proof.
  assert (P : forall h, correct h -> forall x y, h = x ++ y -> correct x).
  { induction 1 as [|h u i R IH A B|h n i R IH NI ALL E]; intros x y Q.
    - destruct x; [constructor|discriminate].
    - destruct y as [|e y] using rev_ind; [rewrite app_nil_r in Q; subst; now constructor|]. rewrite app_assoc in Q. apply app_inj_tail in Q. destruct Q as (Q & _). eauto.
    - destruct y as [|e y] using rev_ind; [rewrite app_nil_r in Q; subst; now constructor|]. rewrite app_assoc in Q. apply app_inj_tail in Q. destruct Q as (Q & _). eauto. }
  intros h R h1 e h2 ->. apply (P (h1 ++ e :: h2) R (h1 ++ [e]) h2). rewrite <- app_assoc. reflexivity.
Qed.
Lemma gen_fresh : forall C, reachable C -> forall h1 u i h2, log C = h1 ++ (Gen, (u, i)) :: h2 ->
  (forall c v j, In (c, (v, j)) h1 -> v <> u /\ j <> i) /\ exists n, u = decimal n /\ forall k, k < n -> exists c j, In (c, (decimal k, j)) h1.
Proof.
  intros C R h1 u i h2 E. pose proof (right_prefix _ (i_right C (reach_inv C R)) h1 _ h2 E) as P. inversion P as [Q|h w j RH A B Q|h n j RH NI ALL EI Q].
  - destruct h1; discriminate.
  - apply app_inj_tail in Q. destruct Q as (_ & Q). discriminate.
  - apply app_inj_tail in Q. destruct Q as (-> & Q). inversion Q; subst. split.
    + intros c v k I. split; intro X; subst.
      * apply NI. apply nio_in. eauto.
      * apply right_ids in I; auto. assert (length (names_in_order h1) < length (names_in_order h1)) by (apply nth_error_Some; congruence). lia.
    + exists n. split; auto. intros k Hk. apply nio_in. auto.
Qed.
Lemma mutex : forall C, reachable C -> forall t1 t2, in_cs (thr C t1) -> in_cs (thr C t2) -> t1 = t2.
Proof. intros C R t1 t2 H1 H2. apply (i_lock C (reach_inv C R)) in H1, H2. congruence. Qed.

(** progress *)
Lemma free_name : forall (m : umap), exists n, n <= length m /\ aget string_dec (decimal n) m = None.
Proof.
  intro m. destruct (Exists_dec (fun n => aget string_dec (decimal n) m = None) (seq 0 (S (length m)))) as [E|E].
  - intro n. destruct (aget string_dec (decimal n) m); [right; discriminate|left; auto].
  - apply Exists_exists in E. destruct E as (n & I & E). apply in_seq in I. exists n. split; [lia|auto].
  - exfalso. assert (IN : incl (map decimal (seq 0 (S (length m)))) (map fst m)).
    { intros u I. apply in_map_iff in I. destruct I as (n & <- & I). destruct (in_dec string_dec (decimal n) (map fst m)) as [|N]; auto. exfalso. apply E.
      apply Exists_exists. exists n. split; auto. now apply aget_none. }
    apply NoDup_incl_length in IN.
    + rewrite !map_length, seq_length in IN. lia.
    + apply FinFun.Injective_map_NoDup; [exact decimal_inj|apply seq_NoDup].
Qed.
Lemma upd_upd : forall f t a b x, upd (upd f t a) t b x = upd f t b x. Proof. intros. unfold upd. now destruct (Nat.eq_dec x t). Qed.
Lemma leave_solo : forall C t c r, thr C t = Leave c r -> exists C', solo t C C' /\ thr C' t = Idle /\ log C' = log C ++ [(c, r)].
Proof.
  intros C t c r E. eexists. split; [eapply solo_step; [apply s_unlock; exact E|apply solo_refl]|]. cbn [thr log]. rewrite upd_same. auto.
Qed.
Lemma try_solo : forall d C t n k, thr C t = Try n -> n + d = k -> aget string_dec (decimal k) (smap C) = None ->
  exists C', solo t C C' /\ thr C' t = Idle /\ exists r, log C' = log C ++ [(Gen, r)].
Proof.
  induction d as [|d IH]; intros C t n k E K F.
  - assert (n = k) by lia. subst n. destruct (leave_solo {| thr := upd (thr C) t (Leave Gen (decimal k, length (smap C))); lock := lock C;
                smap := aset string_dec (decimal k) (length (smap C)) (smap C); log := log C |} t Gen (decimal k, length (smap C))) as (C' & S & I & L); [cbn [thr]; now rewrite upd_same|].
    exists C'. split; [eapply solo_step; [apply s_free; eauto|exact S]|]. split; auto. eauto.
  - destruct (aget string_dec (decimal n) (smap C)) as [i|] eqn:G.
    + destruct (IH {| thr := upd (thr C) t (Try (S n)); lock := lock C; smap := smap C; log := log C |} t (S n) k) as (C' & S & I & r & L); [cbn [thr]; now rewrite upd_same|lia|exact F|].
      exists C'. split; [eapply solo_step; [eapply s_used; eauto|exact S]|]. split; auto. exists r. exact L.
    + destruct (leave_solo {| thr := upd (thr C) t (Leave Gen (decimal n, length (smap C))); lock := lock C;
                smap := aset string_dec (decimal n) (length (smap C)) (smap C); log := log C |} t Gen (decimal n, length (smap C))) as (C' & S & I & L); [cbn [thr]; now rewrite upd_same|].
      exists C'. split; [eapply solo_step; [apply s_free; eauto|exact S]|]. split; auto. eauto.
Qed.
Lemma finishes : forall C t, reachable C -> lock C = Some t -> exists C', solo t C C' /\ thr C' t = Idle /\ exists c r, log C' = log C ++ [(c, r)].
Proof.
  intros C t R L. pose proof (reach_inv C R) as I. assert (CS : in_cs (thr C t)) by (now apply (i_lock C I)). pose proof (i_tok C I t) as T.
  assert (CR : forall C0 u, thr C0 t = Create u -> exists C', solo t C0 C' /\ thr C' t = Idle /\ exists c r, log C' = log C0 ++ [(c, r)]).
  { intros C0 u E. destruct (leave_solo {| thr := upd (thr C0) t (Leave (IdFor u) (u, length (smap C0))); lock := lock C0; smap := aset string_dec u (length (smap C0)) (smap C0); log := log C0 |} t (IdFor u) (u, length (smap C0)))
      as (C' & S & X & Y); [cbn [thr]; now rewrite upd_same|]. exists C'. split; [eapply solo_step; [apply s_create; eauto|exact S]|]. split; auto. eauto. }
  destruct (thr C t) as [|c|u|u|n|c r] eqn:E; try (simpl in CS; tauto).
  - destruct (aget string_dec u (smap C)) as [i|] eqn:G.
    + destruct (leave_solo {| thr := upd (thr C) t (Leave (IdFor u) (u, i)); lock := lock C; smap := smap C; log := log C |} t (IdFor u) (u, i)) as (C' & S & X & Y); [cbn [thr]; now rewrite upd_same|].
      exists C'. split; [eapply solo_step; [eapply s_found; eauto|exact S]|]. split; auto. eauto.
    + destruct (CR {| thr := upd (thr C) t (Create u); lock := lock C; smap := smap C; log := log C |} u) as (C' & S & X & Y); [cbn [thr]; now rewrite upd_same|].
      exists C'. split; [eapply solo_step; [eapply s_new; eauto|exact S]|]. auto.
  - eapply CR; eauto.
  - simpl in T. destruct T as (T & K). destruct (free_name (smap C)) as (k & _ & F). assert (n <= k) by (destruct (le_lt_dec n k); auto; exfalso; exact (K k l F)).
    destruct (try_solo (k - n) C t n k E ltac:(lia) F) as (C' & S & X & r & Y). exists C'. split; auto. split; auto. eauto.
  - destruct (leave_solo C t c r E) as (C' & S & X & Y). exists C'. split; auto. split; auto. eauto.
Qed.
