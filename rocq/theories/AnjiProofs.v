From Coq Require Import ZArith List Lia Bool Permutation.
From Verif Require Import AnjiSpec AnjiModel.
Import ListNotations.
Open Scope nat_scope.

Lemma grow_length {A} (d : A) k l : length (grow d k l) = Nat.max (S k) (length l).
Proof. unfold grow. rewrite app_length, repeat_length. lia. Qed.
Lemma nth_repeat_d {A} (d : A) n k : nth k (repeat d n) d = d.
Proof. revert k; induction n; destruct k; simpl; auto. Qed.
Lemma nth_grow {A} (d : A) k l k' : nth k' (grow d k l) d = nth k' l d.
Proof.
  unfold grow. destruct (Nat.lt_ge_cases k' (length l)); [apply app_nth1; auto|].
  rewrite app_nth2 by auto. rewrite nth_repeat_d, nth_overflow; auto.
Qed.
Lemma grow_id {A} (d : A) k l : k < length l -> grow d k l = l.
Proof. intros. unfold grow. replace (S k - length l) with 0 by lia. apply app_nil_r. Qed.
Lemma setn_length {A} k (v : A) l : length (setn k v l) = length l.
Proof. revert k; induction l; destruct k; simpl; auto. Qed.
Lemma nth_setn {A} (d v : A) l : forall k k', k < length l -> nth k' (setn k v l) d = if Nat.eq_dec k' k then v else nth k' l d.
Proof.
  induction l as [|x l IH]; simpl; intros k k' H; [lia|]. destruct k, k'; simpl; auto.
  rewrite IH by lia. destruct (Nat.eq_dec k' k), (Nat.eq_dec (S k') (S k)); auto; lia.
Qed.
Lemma nth_error_nth_d {A} (d : A) l k : nth k l d = match nth_error l k with Some x => x | None => d end.
Proof. revert k; induction l; destruct k; simpl; auto. Qed.
Definition cell2 (rows : list (list Z)) j i : Z := nth i (nth j rows []) INVALID_ANJI_VAL.
Lemma nth_nil {A} k (d : A) : nth k [] d = d. Proof. destruct k; auto. Qed.
Lemma cell2_nil j i : cell2 [] j i = INVALID_ANJI_VAL.
Proof. unfold cell2. rewrite nth_nil. apply nth_nil. Qed.
Lemma get_cell M n j i : get M n j i = match is_mapped M n with None => INVALID_ANJI_VAL | Some np => cell2 (nth np (anji M) []) j i end.
Proof.
  unfold get. destruct (is_mapped M n) as [np|]; auto. unfold cell2. rewrite (nth_error_nth_d [] (anji M)).
  destruct (nth_error (anji M) np) as [rows|]; [|rewrite nth_nil, nth_nil; auto].
  rewrite (nth_error_nth_d [] rows). destruct (nth_error rows j) as [row|]; [|rewrite nth_nil; auto].
  rewrite (nth_error_nth_d INVALID_ANJI_VAL row). destruct (nth_error row i); auto.
Qed.
Lemma set_rows_cell j i f rows j' i' : cell2 (set_rows j i f rows) j' i' = if Nat.eq_dec j' j then if Nat.eq_dec i' i then f else cell2 rows j' i' else cell2 rows j' i'.
Proof.
  unfold set_rows, cell2. rewrite nth_setn by (rewrite grow_length; lia). destruct (Nat.eq_dec j' j) as [->|].
  - rewrite nth_setn by (rewrite grow_length; lia). destruct (Nat.eq_dec i' i); auto. rewrite !nth_grow. auto.
  - rewrite nth_grow. auto.
Qed.

Lemma look_some n q e : look n q = Some e -> In e q /\ sent e = n.
Proof. induction q as [|x q IH]; simpl; [discriminate|]. destruct Nat.eq_dec; [intros H; injection H as <-; auto|]. intros H. apply IH in H. tauto. Qed.
Lemma look_none n q : look n q = None <-> ~ In n (map sent q).
Proof. induction q as [|x q IH]; simpl; [tauto|]. destruct Nat.eq_dec; [split; [discriminate|tauto]|]. rewrite IH. tauto. Qed.
Lemma look_in q e : NoDup (map sent q) -> In e q -> look (sent e) q = Some e.
Proof.
  induction q as [|x q IH]; simpl; [tauto|]. intros N [->|H]; [destruct Nat.eq_dec; congruence|].
  inversion N; subst. destruct Nat.eq_dec as [E|]; auto. exfalso. apply H2. rewrite E. apply in_map; auto.
Qed.
Lemma change_sent n f q : (forall e, sent (f e) = sent e) -> map sent (change n f q) = map sent q.
Proof. intros H. unfold change. rewrite map_map. apply map_ext. intros e. destruct Nat.eq_dec; auto. Qed.
Lemma look_change n f q n' : (forall e, sent (f e) = sent e) -> look n' (change n f q) = if Nat.eq_dec n' n then option_map f (look n q) else look n' q.
Proof.
  intros Hf. induction q as [|x q IH]; simpl; [destruct Nat.eq_dec; auto|].
  destruct (Nat.eq_dec (sent x) n) as [E|E].
  - rewrite Hf. destruct (Nat.eq_dec (sent x) n'), (Nat.eq_dec n' n); subst; auto; try congruence.
  - destruct (Nat.eq_dec (sent x) n') as [E'|E']; destruct (Nat.eq_dec n' n); subst; auto; congruence.
Qed.

Definition rep (rect : bool) (rows : list (list Z)) (e : entry) : Prop :=
  (forall j i, cell2 rows j i = val e j i) /\ (rect = true -> length rows = fst (dims e) /\ Forall (fun r => length r = snd (dims e)) rows).
Definition fresh (n : nat) : entry := {| sent := n; dims := (0, 0); val := blank |}.
Lemma rep_fresh rect n : rep rect [] (fresh n).
Proof. split; [intros; apply cell2_nil|]. simpl. auto. Qed.
Record ring (rect : bool) (k : nat) (M : anjiM) (q : cache) (R : cache) : Prop := {
  g_q : q = skipn (ptr M) R ++ firstn (ptr M) R;
  g_len : length R <= k;
  g_part : length R < k -> ptr M = length R;
  g_full : length R = k -> ptr M < k;
  g_anji : length (anji M) = length R;
  g_nd : NoDup (map sent R);
  g_np : forall s, read_vec (np2n M) s = match nth_error R s with Some e => (true, sent e) | None => (false, 0) end;
  g_n1 : forall n, fst (read_vec (n2np M) n) = true -> exists e, nth_error R (snd (read_vec (n2np M) n)) = Some e /\ sent e = n;
  g_n2 : forall s e, nth_error R s = Some e -> read_vec (n2np M) (sent e) = (true, s);
  g_rep : forall s e, nth_error R s = Some e -> rep rect (nth s (anji M) []) e }.
Definition Inv (rect : bool) (M : anjiM) (s : option nat * cache) : Prop :=
  maxn M = fst s /\ NoDup (map sent (snd s)) /\
  match fst s with
  | None => forall n, match look n (snd s) with Some e => n < length (anji M) /\ rep rect (nth n (anji M) []) e | None => nth n (anji M) [] = [] end
  | Some 0 => snd s = [] /\ n2np M = [] /\ np2n M = []
  | Some k => exists R, ring rect k M (snd s) R
  end.
Definition slot_of (M : anjiM) (n np : nat) : Prop := np < length (anji M) /\ is_mapped M n = Some np.

Lemma read_update k v l k' : read_vec (update_vec k v l) k' = if Nat.eq_dec k' k then v else read_vec l k'.
Proof. unfold read_vec, update_vec. rewrite nth_setn by (rewrite grow_length; lia). rewrite nth_grow. auto. Qed.
Lemma in_rot {A} p (R : list A) x : In x (skipn p R ++ firstn p R) <-> In x R.
Proof. rewrite <- (firstn_skipn p R) at 3. rewrite !in_app_iff. tauto. Qed.
Lemma nodup_rot {A} p (R : list A) : NoDup R -> NoDup (skipn p R ++ firstn p R).
Proof.
  intros N. apply (Permutation_NoDup (l := firstn p R ++ skipn p R)); [apply Permutation_app_comm|]. rewrite firstn_skipn; auto.
Qed.
Lemma nodup_rot_sent p (R : cache) : NoDup (map sent R) -> NoDup (map sent (skipn p R ++ firstn p R)).
Proof. intros N. rewrite map_app, <- skipn_map, <- firstn_map. apply nodup_rot; auto. Qed.
Lemma nodup_nth_sent (R : cache) s s' e e' : NoDup (map sent R) -> nth_error R s = Some e -> nth_error R s' = Some e' -> sent e = sent e' -> s = s'.
Proof.
  intros N H H' E. apply (NoDup_nth_error (map sent R)); auto.
  - rewrite map_length. apply nth_error_Some. congruence.
  - rewrite !nth_error_map, H, H'. simpl. congruence.
Qed.
Lemma ring_mapped rect k M q R n : ring rect k M q R -> maxn M = Some k -> 
  match is_mapped M n with Some s => exists e, nth_error R s = Some e /\ sent e = n /\ look n q = Some e | None => look n q = None end.
Proof.
  intros G Hm. unfold is_mapped. rewrite Hm. destruct (read_vec (n2np M) n) as [[] s] eqn:E; simpl.
  - destruct (g_n1 _ _ _ _ _ G n) as (e & H1 & H2); [rewrite E; auto|]. rewrite E in H1; simpl in H1. exists e. split; auto. split; auto.
    rewrite <- H2. apply look_in; [rewrite (g_q _ _ _ _ _ G); apply nodup_rot_sent; apply (g_nd _ _ _ _ _ G)|].
    rewrite (g_q _ _ _ _ _ G). apply in_rot. eapply nth_error_In; eauto.
  - apply look_none. rewrite (g_q _ _ _ _ _ G). intros Hin. apply in_map_iff in Hin. destruct Hin as (e & <- & Hin). apply in_rot in Hin.
    apply In_nth_error in Hin. destruct Hin as [s' Hs]. apply (g_n2 _ _ _ _ _ G) in Hs. congruence.
Qed.
Lemma get_right rect M s n j i : Inv rect M s -> get M n j i = read (snd s) n j i.
Proof.
  destruct s as [m q]. intros (Hm & N & H). simpl in *. rewrite get_cell. unfold read. destruct m as [[|k]|].
  - destruct H as (-> & H & _). unfold is_mapped. rewrite Hm, H. unfold read_vec. rewrite nth_nil. reflexivity.
  - destruct H as [R G]. pose proof (ring_mapped _ _ _ _ _ n G Hm) as Q. destruct (is_mapped M n) as [sl|].
    + destruct Q as (e & Q1 & Q2 & ->). apply (g_rep _ _ _ _ _ G) in Q1. apply Q1.
    + rewrite Q. reflexivity.
  - unfold is_mapped. rewrite Hm. specialize (H n). destruct (look n q) as [e|].
    + destruct H as [H1 H2]. apply Nat.ltb_lt in H1. rewrite H1. apply H2.
    + destruct (Nat.ltb n (length (anji M))); auto. rewrite H. apply cell2_nil.
Qed.

Lemma nth_error_setn {A} (v : A) l : forall k k', k < length l -> nth_error (setn k v l) k' = if Nat.eq_dec k' k then Some v else nth_error l k'.
Proof.
  induction l as [|x l IH]; simpl; intros k k' H; [lia|]. destruct k, k'; simpl; auto.
  rewrite IH by lia. destruct (Nat.eq_dec k' k), (Nat.eq_dec (S k') (S k)); auto; lia.
Qed.
Lemma setn_app {A} (v x : A) a b : setn (length a) v (a ++ x :: b) = a ++ v :: b.
Proof. induction a; simpl; congruence. Qed.
Lemma admit_ok rect M m q n : Inv rect M (m, q) -> stores m = true ->
  exists M' np, map_n M n = Some (M', np) /\ let M2 := with_anji M' (grow [] np (anji M')) in
    maxn M2 = m /\ Inv rect M2 (m, admit m n q) /\ slot_of M2 n np.
Proof.
  intros (Hm & N & H) Hs. simpl in *. destruct m as [[|k]|]; [discriminate| |].
  - destruct H as [R G]. unfold map_n. rewrite Hm. pose proof (ring_mapped _ _ _ _ _ n G Hm) as Q. destruct (is_mapped M n) as [np|] eqn:Em.
    + destruct Q as (e & Q1 & Q2 & Q3). exists M, np. split; auto. assert (L : np < length (anji M)) by (rewrite (g_anji _ _ _ _ _ G); apply nth_error_Some; congruence).
      rewrite grow_id by auto. replace (with_anji M (anji M)) with M by (destruct M; auto). split; auto. split; [|split; auto].
      unfold admit. rewrite Q3. split; [|split]; simpl; auto. exists R; auto.
    + pose proof (proj1 (look_none n q) Q) as Qn. assert (Rn : ~ In n (map sent R)).
      { rewrite (g_q _ _ _ _ _ G) in Qn. intros Hin. apply Qn. apply in_map_iff in Hin. destruct Hin as (e & <- & Hin). apply in_map. apply in_rot; auto. }
      rewrite (g_np _ _ _ _ _ G). destruct (nth_error R (ptr M)) as [x|] eqn:Ex.
      * (* full *) assert (Lp : ptr M < length R) by (apply nth_error_Some; congruence).
        assert (Lk : length R = S k). { destruct (Nat.lt_ge_cases (length R) (S k)) as [J|J]; [apply (g_part _ _ _ _ _ G) in J; lia|]. pose proof (g_len _ _ _ _ _ G); lia. }
        assert (Lt : Nat.ltb (ptr M) (length (anji M)) = true) by (apply Nat.ltb_lt; rewrite (g_anji _ _ _ _ _ G); auto). cbn [fst snd]. rewrite Lt.
        eexists; exists (ptr M). split; [reflexivity|]. cbn [maxn ptr anji np2n n2np with_anji].
        rewrite grow_id by (rewrite setn_length, (g_anji _ _ _ _ _ G); auto).
        split; auto. 
        destruct (nth_error_split _ _ Ex) as (A & B & ER & LA).
        assert (EQ : q = x :: B ++ A).
        { rewrite (g_q _ _ _ _ _ G), ER, <- LA. rewrite skipn_app, skipn_all, Nat.sub_diag, firstn_app, firstn_all, Nat.sub_diag. simpl. rewrite app_nil_r. auto. }
        assert (EA : admit (Some (S k)) n q = B ++ A ++ [fresh n]).
        { unfold admit. rewrite Q. replace (Nat.leb (S k) (length q)) with true; [rewrite EQ; simpl; rewrite <- app_assoc; auto|].
          symmetry. apply Nat.leb_le. rewrite <- Lk, EQ, ER. simpl. rewrite !app_length. simpl. lia. }
        rewrite EA. split.
        -- split; [reflexivity|]. split.
           { cbn [snd]. apply (Permutation_NoDup (l := map sent (fresh n :: A ++ B))).
             - apply Permutation_map. rewrite app_assoc. rewrite (Permutation_app_comm A B). apply Permutation_cons_append.
             - simpl. pose proof (g_nd _ _ _ _ _ G) as ND. rewrite ER in ND, Rn. rewrite map_app in ND, Rn |- *. simpl in ND, Rn.
               constructor; [rewrite in_app_iff in Rn |- *; simpl in Rn; tauto|]. apply NoDup_remove_1 in ND. auto. }
           cbn [fst snd]. exists (A ++ fresh n :: B).
           assert (ES : forall s, nth_error (A ++ fresh n :: B) s = if Nat.eq_dec s (ptr M) then Some (fresh n) else nth_error R s).
           { intros s. rewrite <- (setn_app (fresh n) x A B), <- ER, LA. apply nth_error_setn; auto. }
           assert (NX : forall s e, nth_error R s = Some e -> sent e = sent x -> s = ptr M) by (intros s e H1 H2; apply (nodup_nth_sent R s (ptr M) e x); auto; apply (g_nd _ _ _ _ _ G)).
           constructor; cbn [ptr anji np2n n2np maxn with_anji].
           ++ rewrite ER in Lk. rewrite app_length in Lk. simpl in Lk. destruct (Nat.leb (S k) (S (ptr M))) eqn:Ew.
              ** apply Nat.leb_le in Ew. assert (B = []) as -> by (destruct B; auto; simpl in Lk; lia). simpl. rewrite app_nil_r. auto.
              ** rewrite <- LA. rewrite skipn_app, firstn_app. replace (S (length A) - length A) with 1 by lia. rewrite (skipn_all2 (n:=S (length A)) A) by auto. rewrite (firstn_all2 (n:=S (length A)) A) by auto. simpl. auto.
           ++ rewrite ER in Lk. rewrite app_length in *. simpl in *. lia.
           ++ intros J. exfalso. rewrite ER in Lk. rewrite app_length in *. simpl in *. lia.
           ++ intros _. destruct (Nat.leb (S k) (S (ptr M))) eqn:Ew; [lia|]. apply Nat.leb_gt in Ew. auto.
           ++ rewrite setn_length, (g_anji _ _ _ _ _ G), ER, !app_length. simpl. auto.
           ++ pose proof (g_nd _ _ _ _ _ G) as ND. rewrite ER in ND, Rn. rewrite map_app in *. simpl in *.
              apply (Permutation_NoDup (l := n :: map sent A ++ map sent B)); [apply Permutation_middle|].
              constructor; [rewrite in_app_iff in Rn |- *; simpl in Rn; tauto|]. apply NoDup_remove_1 in ND; auto.
           ++ intros s. rewrite read_update, ES. destruct Nat.eq_dec; [reflexivity|]. apply (g_np _ _ _ _ _ G).
           ++ intros n'. rewrite !read_update, ES. destruct (Nat.eq_dec n' n) as [->|]; cbn [fst snd].
              { intros _. destruct (Nat.eq_dec (ptr M) (ptr M)); [|congruence]. exists (fresh n); auto. }
              destruct (Nat.eq_dec n' (sent x)) as [->|Hne]; cbn [fst]; [discriminate|]. intros H1.
              destruct (g_n1 _ _ _ _ _ G n' H1) as (e & H2 & H3). exists e. split; auto. destruct Nat.eq_dec as [E|]; auto.
              exfalso. rewrite E in H2. congruence.
           ++ intros s e. rewrite ES. destruct (Nat.eq_dec s (ptr M)) as [->|Hne].
              { intros J. injection J as <-. cbn [sent fresh]. rewrite !read_update. destruct Nat.eq_dec; congruence. }
              intros H1. rewrite !read_update. destruct (Nat.eq_dec (sent e) n) as [E|].
              { exfalso. apply Rn. rewrite <- E. apply in_map. eapply nth_error_In; eauto. }
              destruct (Nat.eq_dec (sent e) (sent x)) as [E|]; [exfalso; apply Hne; eapply NX; eauto|]. apply (g_n2 _ _ _ _ _ G); auto.
           ++ intros s e. rewrite ES. rewrite nth_setn by (rewrite (g_anji _ _ _ _ _ G); auto). destruct (Nat.eq_dec s (ptr M)).
              { intros J; injection J as <-. apply rep_fresh. }
              apply (g_rep _ _ _ _ _ G).
        -- split; [simpl; rewrite setn_length, (g_anji _ _ _ _ _ G); auto|]. unfold is_mapped. cbn [maxn n2np with_anji]. rewrite ?Hm. rewrite read_update. destruct Nat.eq_dec; [reflexivity|congruence].
      * (* not full *) apply nth_error_None in Ex.
        assert (Lk : length R < S k). { destruct (Nat.eq_dec (length R) (S k)) as [J|J]; [apply (g_full _ _ _ _ _ G) in J; pose proof (g_len _ _ _ _ _ G); lia|]. pose proof (g_len _ _ _ _ _ G); lia. }
        pose proof (g_part _ _ _ _ _ G Lk) as Ep. cbn [fst snd].
        eexists; exists (ptr M). split; [reflexivity|]. cbn [maxn ptr anji np2n n2np with_anji]. split; auto.
        assert (EQ : q = R). { rewrite (g_q _ _ _ _ _ G), Ep, skipn_all, firstn_all. auto. } subst q.
        assert (EA : admit (Some (S k)) n R = R ++ [fresh n]).
        { unfold admit. rewrite Q. replace (Nat.leb (S k) (length R)) with false; auto. symmetry. apply Nat.leb_gt. auto. }
        rewrite EA. assert (LG : length (grow [] (ptr M) (anji M)) = S (length R)) by (rewrite grow_length, (g_anji _ _ _ _ _ G); lia). split.
        -- split; [reflexivity|]. split.
           { cbn [snd]. rewrite map_app. simpl. apply (Permutation_NoDup (l := n :: map sent R)); [apply Permutation_cons_append|]. constructor; auto. }
           cbn [fst snd]. exists (R ++ [fresh n]).
           assert (ES : forall s, nth_error (R ++ [fresh n]) s = if Nat.eq_dec s (ptr M) then Some (fresh n) else nth_error R s).
           { intros s. destruct (Nat.eq_dec s (ptr M)) as [->|]; [rewrite nth_error_app2, Ep, Nat.sub_diag by lia; reflexivity|].
             destruct (Nat.lt_ge_cases s (length R)); [apply nth_error_app1; auto|].
             rewrite nth_error_app2 by lia. assert (s - length R > 0) by lia. destruct (s - length R) as [|[|?]] eqn:E; try lia; simpl; symmetry; apply nth_error_None; auto. }
           constructor; cbn [ptr anji np2n n2np maxn with_anji].
           ++ destruct (Nat.leb (S k) (S (ptr M))) eqn:Ew; [simpl; rewrite app_nil_r; auto|].
              rewrite skipn_all2, firstn_all2 by (rewrite app_length; simpl; lia). auto.
           ++ rewrite app_length; simpl; lia.
           ++ rewrite app_length; cbn [length]. intros J. destruct (Nat.leb (S k) (S (ptr M))) eqn:Ew; [apply Nat.leb_le in Ew; lia|lia].
           ++ intros _. destruct (Nat.leb (S k) (S (ptr M))) eqn:Ew; [lia|]. apply Nat.leb_gt in Ew. auto.
           ++ rewrite LG, app_length; simpl; lia.
           ++ rewrite map_app. simpl. apply (Permutation_NoDup (l := n :: map sent R)); [apply Permutation_cons_append|]. constructor; auto.
           ++ intros s. rewrite read_update, ES. destruct Nat.eq_dec; [reflexivity|]. apply (g_np _ _ _ _ _ G).
           ++ intros n'. rewrite !read_update, ES. destruct (Nat.eq_dec n' n) as [->|]; cbn [fst snd].
              { intros _. destruct (Nat.eq_dec (ptr M) (ptr M)); [|congruence]. exists (fresh n); auto. }
              intros H1. destruct (g_n1 _ _ _ _ _ G n' H1) as (e & H2 & H3). exists e. split; auto. destruct Nat.eq_dec as [E|]; auto.
              exfalso. assert (snd (read_vec (n2np M) n') < length R) by (apply nth_error_Some; congruence). lia.
           ++ intros s e. rewrite ES. destruct (Nat.eq_dec s (ptr M)) as [->|Hne].
              { intros J. injection J as <-. cbn [sent fresh]. rewrite !read_update. destruct Nat.eq_dec; congruence. }
              intros H1. rewrite !read_update. destruct (Nat.eq_dec (sent e) n) as [E|].
              { exfalso. apply Rn. rewrite <- E. apply in_map. eapply nth_error_In; eauto. }
              apply (g_n2 _ _ _ _ _ G); auto.
           ++ intros s e. rewrite ES. rewrite nth_grow. destruct (Nat.eq_dec s (ptr M)) as [->|].
              { intros J; injection J as <-. rewrite nth_overflow by (rewrite (g_anji _ _ _ _ _ G); lia). apply rep_fresh. }
              apply (g_rep _ _ _ _ _ G).
        -- split; [cbn [anji with_anji]; lia|]. unfold is_mapped. cbn [maxn n2np with_anji]. rewrite ?Hm. rewrite read_update. destruct Nat.eq_dec; [reflexivity|congruence].
  - exists M, n. unfold map_n. rewrite Hm. split; auto. cbn [with_anji maxn]. split; auto.
    split.
    + assert (Hn : forall n', nth n' (grow [] n (anji M)) [] = nth n' (anji M) []) by (intros; apply nth_grow).
      pose proof (H n) as Hn0. unfold admit. destruct (look n q) as [e|] eqn:El.
      * split; [auto|]. split; auto. cbn [fst snd anji with_anji]. intros n'. rewrite Hn. specialize (H n'). destruct (look n' q); auto. destruct H; split; auto. rewrite grow_length. lia.
      * assert (Nd : NoDup (map sent (q ++ [fresh n]))).
        { rewrite map_app. simpl. apply (Permutation_NoDup (l := n :: map sent q)); [apply Permutation_cons_append|]. constructor; auto. apply look_none; auto. }
        split; [auto|]. split; auto. cbn [fst snd anji with_anji]. fold (fresh n). intros n'. rewrite Hn, grow_length.
        assert (LK : look n' (q ++ [fresh n]) = if Nat.eq_dec n' n then Some (fresh n) else look n' q).
        { clear - El. induction q as [|x q IH]; simpl in *; [destruct (Nat.eq_dec n n'), (Nat.eq_dec n' n); congruence|].
          destruct (Nat.eq_dec (sent x) n); [discriminate|]. rewrite IH by auto. destruct (Nat.eq_dec (sent x) n'), (Nat.eq_dec n' n); congruence. }
        rewrite LK. destruct (Nat.eq_dec n' n) as [->|]; [split; [lia|]; rewrite Hn0; apply rep_fresh|].
        specialize (H n'). destruct (look n' q); auto. destruct H; split; auto; lia.
    + split; [cbn [anji with_anji]; rewrite grow_length; lia|]. unfold is_mapped. cbn [maxn anji with_anji]. rewrite Hm.
      replace (n <? length (grow [] n (anji M))) with true; auto. symmetry. apply Nat.ltb_lt. rewrite grow_length. lia.
Qed.

Lemma map_error_change n f (R : cache) s : nth_error (change n f R) s = option_map (fun e => if Nat.eq_dec (sent e) n then f e else e) (nth_error R s).
Proof. unfold change. apply nth_error_map. Qed.
Lemma slot_rep rect M m q n np e : Inv rect M (m, q) -> slot_of M n np -> look n q = Some e -> stores m = true -> rep rect (nth np (anji M) []) e.
Proof.
  intros (Hm & N & H) [Hl Hs] He Hst. simpl in *. destruct m as [[|k]|]; [discriminate| |].
  - destruct H as [R G]. pose proof (ring_mapped _ _ _ _ _ n G Hm) as Q. rewrite Hs in Q. destruct Q as (e' & Q1 & Q2 & Q3).
    assert (e' = e) by congruence. subst. apply (g_rep _ _ _ _ _ G); auto.
  - unfold is_mapped in Hs. rewrite Hm in Hs. destruct (Nat.ltb n (length (anji M))); [|discriminate]. injection Hs as <-. specialize (H n). rewrite He in H. apply H.
Qed.
Lemma modify_ok rect M m q n np e rows f : Inv rect M (m, q) -> slot_of M n np -> look n q = Some e -> stores m = true ->
  (forall e, sent (f e) = sent e) -> rep rect rows (f e) ->
  Inv rect (with_anji M (setn np rows (anji M))) (m, change n f q) /\ slot_of (with_anji M (setn np rows (anji M))) n np.
Proof.
  intros (Hm & N & H) [Hl Hs] He Hst Hf Hr. simpl in *. destruct m as [[|k]|]; [discriminate| |].
  - destruct H as [R G]. pose proof (ring_mapped _ _ _ _ _ n G Hm) as Q. rewrite Hs in Q. destruct Q as (e' & Q1 & Q2 & Q3).
    assert (e' = e) by congruence. subst e'. split.
    2: { split; [simpl; rewrite setn_length; auto|]. unfold is_mapped in *. cbn [maxn n2np with_anji] in *. rewrite Hm in Hs |- *. auto. }
    split; [exact Hm|]. split; [cbn [snd]; rewrite change_sent; auto|]. cbn [fst snd]. exists (change n f R).
    constructor; cbn [ptr anji np2n n2np maxn with_anji].
    + unfold change. rewrite skipn_map, firstn_map, <- map_app. f_equal. apply (g_q _ _ _ _ _ G).
    + unfold change; rewrite map_length. apply (g_len _ _ _ _ _ G).
    + unfold change; rewrite map_length. apply (g_part _ _ _ _ _ G).
    + unfold change; rewrite map_length. apply (g_full _ _ _ _ _ G).
    + rewrite setn_length. unfold change; rewrite map_length. apply (g_anji _ _ _ _ _ G).
    + rewrite change_sent by auto. apply (g_nd _ _ _ _ _ G).
    + intros s. rewrite map_error_change, (g_np _ _ _ _ _ G). destruct (nth_error R s) as [x|]; simpl; auto. destruct Nat.eq_dec; rewrite ?Hf; auto.
    + intros n' H1. destruct (g_n1 _ _ _ _ _ G n' H1) as (x & H2 & H3). rewrite map_error_change, H2. eexists; split; [reflexivity|]. destruct Nat.eq_dec; rewrite ?Hf; auto.
    + intros s x. rewrite map_error_change. destruct (nth_error R s) as [y|] eqn:E; [|discriminate]. simpl. intros J; injection J as <-.
      replace (sent (if Nat.eq_dec (sent y) n then f y else y)) with (sent y) by (destruct Nat.eq_dec; rewrite ?Hf; auto). apply (g_n2 _ _ _ _ _ G); auto.
    + intros s x. rewrite map_error_change. destruct (nth_error R s) as [y|] eqn:E; [|discriminate]. simpl. intros J; injection J as <-.
      rewrite nth_setn by auto. destruct (Nat.eq_dec s np) as [->|Hne].
      * assert (y = e) by congruence. subst y. destruct Nat.eq_dec; [auto|congruence].
      * destruct (Nat.eq_dec (sent y) n) as [E'|]; [|apply (g_rep _ _ _ _ _ G); auto]. exfalso. apply Hne. apply (nodup_nth_sent R s np y e); auto; [apply (g_nd _ _ _ _ _ G)|congruence].
  - assert (E : np = n). { unfold is_mapped in Hs. rewrite Hm in Hs. destruct (Nat.ltb n (length (anji M))); congruence. } subst np. split.
    2: { split; [simpl; rewrite setn_length; auto|]. unfold is_mapped in *. cbn [maxn anji with_anji] in *. rewrite setn_length. auto. }
    split; [exact Hm|]. split; [cbn [snd]; rewrite change_sent; auto|]. cbn [fst snd anji with_anji]. intros n'. rewrite look_change, setn_length, nth_setn by auto.
    destruct (Nat.eq_dec n' n) as [->|]; [rewrite He; simpl; auto|]. apply H.
Qed.
Lemma look_admit m n q : exists e, look n (admit m n q) = Some e.
Proof.
  unfold admit. destruct (look n q) as [e|] eqn:E; [rewrite E; eauto|].
  set (l := match m with Some k => if Nat.leb k (length q) then tl q else q | None => q end). clearbody l. induction l as [|x l IH]; simpl.
  - destruct Nat.eq_dec; [eauto|congruence].
  - destruct Nat.eq_dec; eauto.
Qed.
Lemma put_rep j i v rows e : rep false rows e -> rep false (set_rows j i v rows) (put j i v e).
Proof.
  intros [H _]. split; [|discriminate]. intros j' i'. rewrite set_rows_cell. simpl. destruct Nat.eq_dec; auto. destruct Nat.eq_dec; auto.
Qed.
Lemma put_rep_fast rect j i v rows e : rep rect rows e -> rect = true -> j < fst (dims e) -> i < snd (dims e) ->
  exists row, nth_error rows j = Some row /\ i < length row /\ rep rect (setn j (setn i v row) rows) (put j i v e).
Proof.
  intros [H Hr] Et Hj Hi. destruct (Hr Et) as [L F]. assert (Lj : j < length rows) by lia.
  destruct (nth_error rows j) as [row|] eqn:E; [|apply nth_error_None in E; lia].
  assert (Lr : length row = snd (dims e)) by (rewrite Forall_forall in F; apply F; eapply nth_error_In; eauto).
  exists row. split; auto. split; [lia|]. assert (En : nth j rows [] = row) by (rewrite (nth_error_nth_d [] rows), E; auto). split.
  - intros j' i'. unfold cell2. rewrite nth_setn by auto. simpl. destruct (Nat.eq_dec j' j) as [->|].
    + rewrite nth_setn by lia. destruct Nat.eq_dec; auto. rewrite <- H. unfold cell2. rewrite En. auto.
    + apply H.
  - intros _. simpl. rewrite setn_length. split; auto. apply Forall_forall. intros r Hin. apply In_nth_error in Hin. destruct Hin as [s Hs].
    rewrite nth_error_setn in Hs by auto. destruct Nat.eq_dec; [injection Hs as <-; rewrite setn_length; auto|]. rewrite Forall_forall in F. apply F. eapply nth_error_In; eauto.
Qed.
Lemma cell2_repeat a b j i : cell2 (repeat (repeat INVALID_ANJI_VAL b) a) j i = INVALID_ANJI_VAL.
Proof.
  unfold cell2. destruct (Nat.lt_ge_cases j a).
  - rewrite nth_indep with (d' := repeat INVALID_ANJI_VAL b) by (rewrite repeat_length; auto). rewrite nth_repeat_d. apply nth_repeat_d.
  - rewrite (nth_overflow (repeat (repeat INVALID_ANJI_VAL b) a)) by (rewrite repeat_length; auto). apply nth_nil.
Qed.
Lemma reserve_rep rows e slen tlen : rep true rows e ->
  rep true (if resize_required rows slen tlen then repeat (repeat INVALID_ANJI_VAL (S slen)) (S tlen) else rows) (reserve slen tlen e)
  /\ tlen < fst (dims (reserve slen tlen e)) /\ slen < snd (dims (reserve slen tlen e)).
Proof.
  intros [H Hr]. destruct (Hr eq_refl) as [L F].
  assert (E : resize_required rows slen tlen = orb (Nat.leb (fst (dims e)) tlen) (Nat.leb (snd (dims e)) slen)).
  { unfold resize_required. rewrite L. destruct (Nat.leb (fst (dims e)) tlen) eqn:E; auto. apply Nat.leb_gt in E. simpl. f_equal.
    destruct rows as [|r rows]; [simpl in L; lia|]. inversion F; auto. }
  rewrite E. unfold reserve. destruct (orb _ _) eqn:Eo.
  - split; [|simpl; lia]. split; [intros; apply cell2_repeat|]. intros _. cbn [dims fst snd]. rewrite repeat_length. split; auto.
    apply Forall_forall. intros r Hin. apply repeat_spec in Hin. subst. apply repeat_length.
  - apply orb_false_iff in Eo. destruct Eo as [E1 E2]. apply Nat.leb_gt in E1, E2. split; auto. split; auto.
Qed.
Lemma change_change n f g q : (forall e, sent (f e) = sent e) -> change n g (change n f q) = change n (fun e => g (f e)) q.
Proof. intros H. unfold change. rewrite map_map. apply map_ext. intros e. destruct (Nat.eq_dec (sent e) n) as [E|E]; [rewrite H|]; destruct Nat.eq_dec; congruence. Qed.
Lemma writes_ok n slen tlen : forall ws M m q np e, Inv true M (m, q) -> maxn M = m -> slot_of M n np -> look n q = Some e -> stores m = true ->
  tlen < fst (dims e) -> slen < snd (dims e) -> Forall (fun w => (fst (fst w) <= tlen /\ snd (fst w) <= slen)%nat) ws ->
  exists M', writes M np ws = Some M' /\ Inv true M' (m, fold_left (fun q' w => change n (put (fst (fst w)) (snd (fst w)) (snd w)) q') ws q).
Proof.
  induction ws as [|[[j i] v] ws IH]; intros M m q np e I Hm S L St D1 D2 F; simpl.
  - exists M; auto.
  - inversion F as [|? ? [F1 F2] F3]; subst. simpl in F1, F2.
    pose proof (slot_rep _ _ _ _ _ _ _ I S L St) as Hr.
    destruct (put_rep_fast true j i v _ _ Hr eq_refl) as (row & R1 & R2 & R3); [lia|lia|].
    unfold set_fast. rewrite St. assert (En : nth_error (anji M) np = Some (nth np (anji M) [])) by (apply nth_error_nth'; apply S).
    rewrite En, R1. apply Nat.ltb_lt in R2. rewrite R2.
    destruct (modify_ok true M (maxn M) q n np e _ (put j i v) I S L St (fun _ => eq_refl) R3) as [I' S'].
    apply IH with (e := put j i v e); auto. rewrite look_change by auto. destruct Nat.eq_dec; [rewrite L; auto|congruence].
Qed.
Lemma get_stores_false M m : maxn M = m -> stores m = false -> m = Some 0.
Proof. intros _. destruct m as [[|]|]; simpl; congruence. Qed.
Lemma writes_none M np ws : stores (maxn M) = false -> writes M np ws = Some M.
Proof. intros H. revert M H. induction ws as [|[[j i] v] ws IH]; simpl; intros M H; auto. unfold set_fast. rewrite H. auto. Qed.
Lemma empty_inv rect m : Inv rect (set_maxnsize anji_new m) (m, []).
Proof.
  split; [reflexivity|]. split; [constructor|]. cbn [fst snd]. destruct m as [[|k]|]; auto.
  - exists []. constructor; simpl; auto; try lia; try (apply NoDup_nil).
    + intros z. unfold read_vec. rewrite nth_nil. destruct z; auto.
    + intros n. unfold read_vec. rewrite nth_nil. discriminate.
    + intros [|z] e H; discriminate H.
    + intros [|z] e H; discriminate H.
  - intros n. simpl. destruct n; auto.
Qed.
Lemma reset_cell rows j i : cell2 (map (map (fun _ : Z => INVALID_ANJI_VAL)) rows) j i = INVALID_ANJI_VAL.
Proof.
  unfold cell2. rewrite (nth_error_nth_d [] (map _ rows)), nth_error_map. destruct (nth_error rows j) as [r|]; simpl; [|apply nth_nil].
  rewrite nth_error_nth_d, nth_error_map. destruct (nth_error r i); auto.
Qed.
Lemma reset_rep rect rows e : rep rect rows e -> rep rect (map (map (fun _ : Z => INVALID_ANJI_VAL)) rows) {| sent := sent e; dims := dims e; val := blank |}.
Proof.
  intros [H Hr]. split; [intros; apply reset_cell|]. intros E. destruct (Hr E) as [L F]. simpl. rewrite map_length. split; auto.
  apply Forall_forall. intros r Hin. apply in_map_iff in Hin. destruct Hin as (r' & <- & Hin). rewrite map_length. rewrite Forall_forall in F; auto.
Qed.
Definition blanked (e : entry) := {| sent := sent e; dims := dims e; val := blank |}.
Lemma look_blanked n q : look n (map blanked q) = option_map blanked (look n q).
Proof. induction q as [|x q IH]; simpl; auto. destruct Nat.eq_dec; auto. Qed.
Lemma nth_map_rows (a : list (list (list Z))) s : nth s (map (map (map (fun _ => INVALID_ANJI_VAL))) a) [] = map (map (fun _ => INVALID_ANJI_VAL)) (nth s a []).
Proof. rewrite (nth_error_nth_d [] (map _ a)), (nth_error_nth_d [] a), nth_error_map. destruct (nth_error a s); auto. Qed.
Lemma reset_ok rect M m q : Inv rect M (m, q) -> stores m = true -> Inv rect (reset_entries M) (m, map blanked q).
Proof.
  intros (Hm & N & H) Hst. simpl in *. unfold reset_entries. rewrite Hm, Hst. split; [exact Hm|]. split.
  { cbn [snd]. rewrite map_map. simpl. exact N. }
  cbn [fst snd]. destruct m as [[|k]|]; [discriminate| |].
  - destruct H as [R G]. exists (map blanked R). constructor; cbn [ptr anji np2n n2np maxn with_anji].
    + rewrite skipn_map, firstn_map, <- map_app. f_equal. apply (g_q _ _ _ _ _ G).
    + rewrite map_length. apply (g_len _ _ _ _ _ G).
    + rewrite map_length. apply (g_part _ _ _ _ _ G).
    + rewrite map_length. apply (g_full _ _ _ _ _ G).
    + rewrite !map_length. apply (g_anji _ _ _ _ _ G).
    + rewrite map_map. apply (g_nd _ _ _ _ _ G).
    + intros s. rewrite nth_error_map, (g_np _ _ _ _ _ G). destruct (nth_error R s); auto.
    + intros n H1. destruct (g_n1 _ _ _ _ _ G n H1) as (e & H2 & H3). exists (blanked e). rewrite nth_error_map, H2. auto.
    + intros s e. rewrite nth_error_map. destruct (nth_error R s) as [y|] eqn:E; [|discriminate]. simpl. intros J; injection J as <-. exact (g_n2 _ _ _ _ _ G s y E).
    + intros s e. rewrite nth_error_map. destruct (nth_error R s) eqn:E; [|discriminate]. simpl. intros J; injection J as <-.
      rewrite nth_map_rows. apply reset_rep. apply (g_rep _ _ _ _ _ G); auto.
  - intros n. cbn [anji with_anji]. rewrite look_blanked, map_length, nth_map_rows. specialize (H n). destruct (look n q); simpl; [destruct H; split; auto; apply reset_rep; auto|].
    rewrite H. reflexivity.
Qed.
Lemma inv_nostore rect M q : Inv rect M (Some 0, q) -> q = [].
Proof. intros (_ & _ & H). apply H. Qed.
Lemma op_ok (rect : bool) o : (if rect then within o else cellwise o) -> forall M s, Inv rect M s -> exists M', do_op M o = Some M' /\ Inv rect M' (spec_op s o).
Proof.
  intros W M [m q] I. pose proof (proj1 I) as Hm. simpl in Hm. destruct (stores m) eqn:St.
  2: { assert (m = Some 0) by (destruct m as [[|]|]; simpl in St; congruence). rewrite <- Hm in H. rewrite H in Hm; subst m.
       destruct o; simpl; unfold set, init_nth_entry, reset_entries; rewrite ?H; simpl.
       - exists M. auto.
       - exists M. rewrite writes_none by (rewrite H; auto). auto.
       - exists (clear M). split; auto. split; [exact H|]. split; [constructor|]. simpl. auto.
       - exists M. auto.
       - exists (set_maxnsize M m). split; auto. apply (empty_inv rect m). }
  destruct o as [n j i v|n slen tlen ws| | |m']; cbn [do_op spec_op]; rewrite ?St.
  - destruct rect; [destruct W|]. unfold set. rewrite Hm, St.
    destruct (admit_ok false M m q n I St) as (M' & np & E & Hm2 & I2 & S2). rewrite E. destruct (look_admit m n q) as [e He].
    pose proof (slot_rep _ _ _ _ _ _ _ I2 S2 He St) as Hr. cbn [anji with_anji] in Hr.
    eexists. split; [reflexivity|].
    exact (proj1 (modify_ok false _ m _ n np e _ (put j i v) I2 S2 He St (fun _ => eq_refl) (put_rep j i v _ _ Hr))).
  - destruct rect; [|destruct W]. unfold init_nth_entry. rewrite Hm, St.
    destruct (admit_ok true M m q n I St) as (M' & np & E & Hm2 & I2 & S2). rewrite E. destruct (look_admit m n q) as [e He].
    pose proof (slot_rep _ _ _ _ _ _ _ I2 S2 He St) as Hr. cbn [anji with_anji] in Hr.
    destruct (reserve_rep _ _ slen tlen Hr) as (R1 & R2 & R3).
    assert (Sf : forall e, sent (reserve slen tlen e) = sent e) by (intros x; unfold reserve; destruct orb; auto).
    destruct (modify_ok true _ m _ n np e _ (reserve slen tlen) I2 S2 He St Sf R1) as [I3 S3].
    apply (writes_ok n slen tlen ws _ m _ np (reserve slen tlen e)) in I3; auto; [rewrite look_change by auto; destruct Nat.eq_dec; [rewrite He; auto|congruence]].
  - exists (clear M). split; auto. replace (clear M) with (set_maxnsize anji_new m) by (unfold clear, set_maxnsize; rewrite Hm; auto). apply empty_inv.
  - exists (reset_entries M). split; auto. apply reset_ok; auto.
  - exists (set_maxnsize M m'). split; auto. apply (empty_inv rect m').
Qed.
Lemma run_ok (rect : bool) os : Forall (fun o => if rect then within o else cellwise o) os -> forall M s, Inv rect M s -> exists M', run M os = Some M' /\ Inv rect M' (fold_left spec_op os s).
Proof.
  induction 1 as [|o os W F IH]; intros M s I; simpl; [eauto|].
  destruct (op_ok rect o W M s I) as (M' & E & I'). rewrite E. apply IH; auto.
Qed.
Lemma fifo (rect : bool) os : Forall (fun o => if rect then within o else cellwise o) os ->
  exists M, run anji_new os = Some M /\ maxn M = fst (spec_run os) /\ forall n j i, get M n j i = read (snd (spec_run os)) n j i.
Proof.
  intros F. destruct (run_ok rect os F anji_new (None, []) (empty_inv rect None)) as (M & E & I). exists M. split; auto. split; [apply I|].
  intros. apply (get_right rect); auto.
Qed.
Lemma cache_bound os : forall m q, spec_run os = (m, q) -> match m with Some k => length q <= k | None => True end.
Proof.
  unfold spec_run. assert (H : forall os s, (match fst s with Some k => length (snd s) <= k | None => True end) ->
    match fst (fold_left spec_op os s) with Some k => length (snd (fold_left spec_op os s)) <= k | None => True end).
  { induction os0 as [|o os0 IH]; intros s Hs; auto. apply IH. destruct s as [m q]. cbn [fst snd] in Hs.
    assert (HA : forall n, stores m = true -> match m with Some k => length (admit m n q) <= k | None => True end).
    { intros n St. destruct m as [k|]; auto. unfold admit. destruct (look n q); auto. rewrite app_length. simpl. destruct k; [discriminate|].
      destruct q; simpl in *; [lia|]. destruct (Nat.leb k (length q)) eqn:E; [lia|]. apply Nat.leb_gt in E. simpl. lia. }
    assert (HC : forall n f q0, length (change n f q0) = length q0) by (intros; apply map_length).
    assert (HF : forall n ws q0, length (fold_left (fun (q' : cache) w => change n (put (fst (fst w)) (snd (fst w)) (snd w)) q') (ws : list (nat * nat * Z)) q0) = length q0).
    { intros n ws. induction ws; intros q0; simpl; auto. rewrite IHws. apply HC. }
    destruct o; cbn [spec_op]; try (destruct (stores m) eqn:St); cbn [fst snd]; auto.
    all: rewrite ?HC, ?HF, ?HC, ?map_length; auto; try (apply HA; auto; fail).
    all: try (match goal with |- match ?m with _ => _ end => destruct m; simpl; auto; lia end). }
  intros m q E. pose proof (H os (None, []) I) as Q. rewrite E in Q. exact Q.
Qed.
