From Coq Require Import ZArith List Lia Bool Permutation.
From Verif Require Import AnjiSpec AnjiModel AnjiProofs.
Import ListNotations.
Open Scope nat_scope.

(** lists of lists whose last element is not empty *)
Definition tight {A} (l : list (list A)) : Prop := l = [] \/ last l [] <> [].
Lemma tight_ext {A} (a b : list (list A)) : tight a -> tight b -> (forall k, nth k a [] = nth k b []) -> a = b.
Proof.
  assert (H : forall a b : list (list A), tight a -> tight b -> (forall k, nth k a [] = nth k b []) -> length a <= length b).
  { intros x y Tx Ty E. destruct (Nat.le_gt_cases (length x) (length y)) as [|L]; auto. exfalso.
    destruct Tx as [->|Tx]; [simpl in L; lia|]. apply Tx. destruct x as [|z x] using rev_ind; [reflexivity|]. rewrite last_last.
    specialize (E (length x)). rewrite app_nth2, Nat.sub_diag in E by lia. simpl in E. rewrite E. apply nth_overflow. rewrite app_length in L; simpl in L; lia. }
  intros Ta Tb E. apply (nth_ext a b [] []); [|intros; apply E].
  pose proof (H a b Ta Tb E). assert (length b <= length a) by (apply H; auto). lia.
Qed.
Lemma last_nth {A} (l : list A) d : last l d = nth (pred (length l)) l d.
Proof. induction l as [|x l IH]; auto. destruct l; auto. Qed.
Lemma tight_set {A} (l : list (list A)) k v : tight l -> v <> [] -> tight (setn k v (grow [] k l)).
Proof.
  intros T Hv. right. rewrite last_nth, setn_length, nth_setn by (rewrite grow_length; lia).
  destruct Nat.eq_dec as [|Hn]; auto. rewrite nth_grow. rewrite grow_length in *.
  assert (length l > S k) by lia. replace (Nat.max (S k) (length l)) with (length l) by lia.
  destruct T as [->|T]; [simpl in *; lia|]. rewrite <- last_nth. auto.
Qed.
Lemma tight_setn {A} (l : list (list A)) k v : tight l -> k < length l -> v <> [] -> tight (setn k v l).
Proof. intros T L Hv. pose proof (tight_set l k v T Hv) as H. rewrite grow_id in H; auto. Qed.
Definition tight3 (a : list (list (list Z))) : Prop := tight a /\ forall n, tight (nth n a []).
Lemma tight_nil {A} : tight (@nil (list A)). Proof. left; auto. Qed.
Lemma setn_nonempty {A} k (v : A) l : l <> [] -> setn k v l <> [].
Proof. intros H. destruct l; [congruence|]. destruct k; simpl; congruence. Qed.
Lemma grow_nonempty {A} (d : A) k l : grow d k l <> [].
Proof. intros E. apply (f_equal (@length A)) in E. rewrite grow_length in E. cbn [length] in E. lia. Qed.
Lemma set_rows_tight j i f rows : tight rows -> tight (set_rows j i f rows) /\ set_rows j i f rows <> [].
Proof.
  intros T. unfold set_rows. split.
  - apply tight_set; auto. apply setn_nonempty. apply grow_nonempty.
  - apply setn_nonempty. apply grow_nonempty.
Qed.
Lemma tight3_put a np rows : tight3 a -> tight rows -> rows <> [] -> tight3 (setn np rows (grow [] np a)).
Proof.
  intros [T1 T2] Tr Hr. split; [apply tight_set; auto|]. intros n. rewrite nth_setn by (rewrite grow_length; lia). destruct Nat.eq_dec; auto. rewrite nth_grow. auto.
Qed.
(** an evicted slot is empty until it is filled again *)
Definition hollow (np : nat) (a : list (list (list Z))) : Prop := exists b, tight3 b /\ (a = b \/ (np < length b /\ a = setn np [] b)).
Lemma setn_setn {A} k (v w : A) l : setn k v (setn k w l) = setn k v l.
Proof. revert k; induction l; destruct k; simpl; auto. rewrite IHl; auto. Qed.
Lemma hollow_put a np rows : hollow np a -> tight rows -> rows <> [] -> tight3 (setn np rows (grow [] np a)).
Proof.
  intros (b & Tb & [->|[L ->]]) Tr Hr; [apply tight3_put; auto|].
  rewrite grow_id by (rewrite setn_length; auto). rewrite setn_setn. rewrite <- (grow_id [] np b) by auto. apply tight3_put; auto.
Qed.
Lemma hollow_nth a np n : hollow np a -> tight (nth n a []).
Proof.
  intros (b & [T1 T2] & [->|[L ->]]); auto. rewrite nth_setn by auto. destruct Nat.eq_dec; auto. apply tight_nil.
Qed.
Lemma map_n_hollow M n M' np : tight3 (anji M) -> map_n M n = Some (M', np) -> hollow np (anji M').
Proof.
  intros T. unfold map_n. destruct (maxn M) as [m|]; [|intros H; injection H as <- <-; exists (anji M); auto].
  destruct (is_mapped M n); [intros H; injection H as <- <-; exists (anji M); auto|].
  destruct (fst (read_vec (np2n M) (ptr M))).
  - destruct (Nat.ltb (ptr M) (length (anji M))) eqn:E; [|discriminate]. intros H; injection H as <- <-. cbn [anji]. exists (anji M). split; auto. right. split; auto. apply Nat.ltb_lt; auto.
  - intros H; injection H as <- <-. exists (anji M); auto.
Qed.
Lemma set_tight M n j i f M' : tight3 (anji M) -> set M n j i f = Some M' -> tight3 (anji M').
Proof.
  intros T. unfold set. destruct (stores (maxn M)); [|intros H; injection H as <-; auto].
  destruct (map_n M n) as [[M1 np]|] eqn:E; [|discriminate]. intros H; injection H as <-. cbn [anji with_anji].
  pose proof (map_n_hollow _ _ _ _ T E) as Hh. rewrite nth_grow. destruct (set_rows_tight j i f (nth np (anji M1) []) (hollow_nth _ _ _ Hh)). apply hollow_put; auto.
Qed.
Lemma tight_repeat {A} (v : list A) k : v <> [] -> tight (repeat v k).
Proof. intros H. destruct k; [left; auto|]. right. rewrite last_nth, repeat_length. cbn [pred]. rewrite nth_indep with (d' := v) by (rewrite repeat_length; lia). rewrite nth_repeat_d. auto. Qed.
Lemma init_tight M n sl tl M' r : tight3 (anji M) -> init_nth_entry M n sl tl = Some (M', r) -> tight3 (anji M').
Proof.
  intros T. unfold init_nth_entry. destruct (stores (maxn M)); [|intros H; injection H as <- <-; auto].
  destruct (map_n M n) as [[M1 np]|] eqn:E; [|discriminate]. intros H; injection H as <- <-. cbn [anji with_anji].
  pose proof (map_n_hollow _ _ _ _ T E) as Hh. rewrite nth_grow. pose proof (hollow_nth _ _ np Hh) as Tn.
  apply hollow_put; auto; destruct (resize_required _ _ _) eqn:Er; auto.
  - apply (tight_repeat (repeat INVALID_ANJI_VAL (S sl)) (S tl)). simpl; congruence.
  - simpl; congruence.
  - intros Q. rewrite Q in Er. unfold resize_required in Er. simpl in Er. discriminate.
Qed.
Lemma set_fast_tight M np j i f M' : tight3 (anji M) -> set_fast M np j i f = Some M' -> tight3 (anji M').
Proof.
  intros T. unfold set_fast. destruct (stores (maxn M)); [|intros H; injection H as <-; auto].
  destruct (nth_error (anji M) np) as [rows|] eqn:E1; [|discriminate]. destruct (nth_error rows j) as [row|] eqn:E2; [|discriminate].
  destruct (Nat.ltb i (length row)) eqn:E3; [|discriminate]. intros H; injection H as <-. cbn [anji with_anji].
  assert (L1 : np < length (anji M)) by (apply nth_error_Some; congruence). assert (L2 : j < length rows) by (apply nth_error_Some; congruence).
  rewrite <- (grow_id [] np (anji M)) by auto. apply Nat.ltb_lt in E3. assert (Tr : tight rows).
  { destruct T as [_ T]. specialize (T np). rewrite (nth_error_nth_d [] (anji M)), E1 in T. auto. }
  apply tight3_put; auto.
  - apply tight_setn; auto. apply setn_nonempty. destruct row; simpl in E3; [lia|congruence].
  - apply setn_nonempty. destruct rows; [simpl in L2; lia|congruence].
Qed.
Lemma writes_tight ws : forall M np M', tight3 (anji M) -> writes M np ws = Some M' -> tight3 (anji M').
Proof.
  induction ws as [|[[j i] v] ws IH]; simpl; intros M np M' T H; [injection H as <-; auto|].
  destruct (set_fast M np j i v) as [M1|] eqn:E; [|discriminate]. apply (IH M1 np M'); auto. eapply set_fast_tight; eauto.
Qed.
Lemma tight_map {A B} (f : list A -> list B) (l : list (list A)) : (forall x, f x = [] <-> x = []) -> tight l -> tight (map f l).
Proof.
  intros Hf [->|T]; [left; auto|]. right. rewrite last_nth, map_length. rewrite last_nth in T.
  assert (E : forall k, nth k (map f l) [] = f (nth k l [])).
  { intros k. rewrite (nth_error_nth_d [] (map f l)), (nth_error_nth_d [] l), nth_error_map. destruct (nth_error l k); simpl; auto. symmetry. apply Hf; auto. }
  rewrite E. intros Q. apply Hf in Q. congruence.
Qed.
Lemma map_nil_iff {A B} (f : A -> B) l : map f l = [] <-> l = []. Proof. destruct l; simpl; split; congruence. Qed.
Lemma tight3_nil : tight3 []. Proof. split; [apply tight_nil|]. intros [|]; apply tight_nil. Qed.
Lemma op_tight o M M' : tight3 (anji M) -> do_op M o = Some M' -> tight3 (anji M').
Proof.
  intros T H. destruct o; simpl in H.
  - eapply set_tight; eauto.
  - destruct (init_nth_entry M n slen tlen) as [[M1 [np|]]|] eqn:E; try discriminate; apply (writes_tight _ _ _ _ (init_tight _ _ _ _ _ _ T E) H).
  - injection H as <-. apply tight3_nil.
  - injection H as <-. unfold reset_entries. destruct (stores (maxn M)); auto. cbn [anji with_anji]. destruct T as [T1 T2]. split.
    + apply tight_map; auto. intros; apply map_nil_iff.
    + intros n. rewrite nth_map_rows. apply tight_map; auto. intros; apply map_nil_iff.
  - injection H as <-. apply tight3_nil.
Qed.
Lemma run_tight os : forall M M', tight3 (anji M) -> run M os = Some M' -> tight3 (anji M').
Proof.
  induction os as [|o os IH]; simpl; intros M M' T H; [injection H as <-; auto|]. destruct (do_op M o) as [M1|] eqn:E; [|discriminate].
  apply (IH M1); auto. eapply op_tight; eauto.
Qed.

(** loading into an unbounded matrix *)
Definition row_of (a : list (list (list Z))) n j := nth j (nth n a []) [].
Lemma set_unr M n j i f : maxn M = None -> exists M', set M n j i f = Some M' /\ maxn M' = None /\ ptr M' = ptr M /\ np2n M' = np2n M /\ n2np M' = n2np M /\
  forall n' j', row_of (anji M') n' j' = if Nat.eq_dec n' n then if Nat.eq_dec j' j then setn i f (grow INVALID_ANJI_VAL i (row_of (anji M) n j)) else row_of (anji M) n' j' else row_of (anji M) n' j'.
Proof.
  intros Hm. unfold set, map_n. rewrite Hm. simpl stores. cbv iota. eexists. split; [reflexivity|]. cbn [maxn ptr np2n n2np anji with_anji]. repeat (split; auto).
  intros n' j'. unfold row_of. rewrite nth_setn by (rewrite grow_length; lia). destruct (Nat.eq_dec n' n) as [->|]; [|rewrite nth_grow; auto].
  rewrite nth_grow. unfold set_rows. rewrite nth_setn by (rewrite grow_length; lia). destruct (Nat.eq_dec j' j) as [->|]; rewrite ?nth_grow; auto.
Qed.
Lemma setn_snoc {A} (v d : A) l : setn (length l) v (grow d (length l) l) = l ++ [v].
Proof. unfold grow. replace (S (length l) - length l) with 1 by lia. simpl. apply setn_app. Qed.
Lemma load_app rs1 : forall M rs2, load_values M (rs1 ++ rs2) = match load_values M rs1 with None => None | Some M' => load_values M' rs2 end.
Proof. induction rs1 as [|[[[n j] i] v] rs1 IH]; simpl; intros; auto. destruct (set M n j i v); auto. Qed.
Definition same_maps M M' := maxn M' = None /\ ptr M' = ptr M /\ np2n M' = np2n M /\ n2np M' = n2np M.
Lemma load_row n j row : forall pre M, maxn M = None -> row_of (anji M) n j = pre ->
  exists M', load_values M (map (fun c => (n, j, fst c, snd c)) (combine (seq (length pre) (length row)) row)) = Some M' /\ same_maps M M' /\
    forall n' j', row_of (anji M') n' j' = if Nat.eq_dec n' n then if Nat.eq_dec j' j then pre ++ row else row_of (anji M) n' j' else row_of (anji M) n' j'.
Proof.
  induction row as [|v row IH]; intros pre M Hm Hp; simpl.
  - exists M. split; auto. split; [unfold same_maps; auto|]. intros n' j'. destruct (Nat.eq_dec n' n) as [->|]; auto. destruct (Nat.eq_dec j' j) as [->|]; auto. rewrite app_nil_r. auto.
  - destruct (set_unr M n j (length pre) v Hm) as (M1 & E & A1 & A2 & A3 & A4 & A5). rewrite E.
    specialize (IH (pre ++ [v]) M1 A1). rewrite app_length in IH. simpl in IH. replace (length pre + 1) with (S (length pre)) in IH by lia.
    destruct IH as (M' & E' & (B1 & B2 & B3 & B4) & B5).
    { rewrite A5. destruct Nat.eq_dec; [|congruence]. destruct Nat.eq_dec; [|congruence]. rewrite Hp. apply setn_snoc. }
    exists M'. split; auto. split; [unfold same_maps; repeat split; congruence|]. intros n' j'. rewrite B5, A5. destruct Nat.eq_dec; auto. destruct Nat.eq_dec; auto. rewrite <- app_assoc. auto.
Qed.
Lemma load_rows n rows : forall j0 M, maxn M = None -> (forall j, j0 <= j -> row_of (anji M) n j = []) ->
  exists M', load_values M (flat_map (fun r => map (fun c => (n, fst r, fst c, snd c)) (indexed (snd r))) (combine (seq j0 (length rows)) rows)) = Some M' /\ same_maps M M' /\
    forall n' j', row_of (anji M') n' j' = if Nat.eq_dec n' n then if Nat.leb j0 j' then nth (j' - j0) rows [] else row_of (anji M) n' j' else row_of (anji M) n' j'.
Proof.
  induction rows as [|row rows IH]; intros j0 M Hm He; simpl.
  - exists M. split; auto. split; [unfold same_maps; auto|]. intros n' j'. destruct (Nat.eq_dec n' n) as [->|]; auto. destruct (Nat.leb j0 j') eqn:E; auto. apply Nat.leb_le in E. rewrite He by auto. destruct (j' - j0); auto.
  - rewrite load_app. unfold indexed at 1. destruct (load_row n j0 row [] M Hm (He j0 (le_n _))) as (M1 & E1 & (A1 & A2 & A3 & A4) & A5). simpl in E1. rewrite E1.
    destruct (IH (S j0) M1 A1) as (M' & E' & (B1 & B2 & B3 & B4) & B5).
    { intros j Hj. rewrite A5. destruct Nat.eq_dec; [|congruence]. destruct Nat.eq_dec; [lia|]. apply He. lia. }
    exists M'. split; auto. split; [unfold same_maps; repeat split; congruence|]. intros n' j'. rewrite B5, A5. destruct (Nat.eq_dec n' n); auto.
    destruct (Nat.leb (S j0) j') eqn:E.
    + apply Nat.leb_le in E. replace (Nat.leb j0 j') with true by (symmetry; apply Nat.leb_le; lia). replace (j' - j0) with (S (j' - S j0)) by lia. auto.
    + apply Nat.leb_gt in E. destruct (Nat.eq_dec j' j0) as [->|].
      * rewrite Nat.leb_refl, Nat.sub_diag. auto.
      * replace (Nat.leb j0 j') with false by (symmetry; apply Nat.leb_gt; lia). auto.
Qed.
Lemma load_slots a : forall n0 M, maxn M = None -> (forall n j, n0 <= n -> row_of (anji M) n j = []) ->
  exists M', load_values M (flat_map (fun p => flat_map (fun r => map (fun c => (fst p, fst r, fst c, snd c)) (indexed (snd r))) (indexed (snd p))) (combine (seq n0 (length a)) a)) = Some M' /\ same_maps M M' /\
    forall n' j', row_of (anji M') n' j' = if Nat.leb n0 n' then row_of a (n' - n0) j' else row_of (anji M) n' j'.
Proof.
  induction a as [|rows a IH]; intros n0 M Hm He; simpl.
  - exists M. split; auto. split; [unfold same_maps; auto|]. intros n' j'. destruct (Nat.leb n0 n') eqn:E; auto. apply Nat.leb_le in E. rewrite He by auto. unfold row_of. rewrite nth_nil. rewrite nth_nil. auto.
  - rewrite load_app. unfold indexed at 2. destruct (load_rows n0 rows 0 M Hm (fun j _ => He n0 j (le_n _))) as (M1 & E1 & (A1 & A2 & A3 & A4) & A5). simpl in E1. rewrite E1.
    destruct (IH (S n0) M1 A1) as (M' & E' & (B1 & B2 & B3 & B4) & B5).
    { intros n j Hj. rewrite A5. destruct Nat.eq_dec; [lia|]. apply He. lia. }
    exists M'. split; auto. split; [unfold same_maps; repeat split; congruence|]. intros n' j'. rewrite B5, A5.
    destruct (Nat.leb (S n0) n') eqn:E.
    + apply Nat.leb_le in E. replace (Nat.leb n0 n') with true by (symmetry; apply Nat.leb_le; lia). replace (n' - n0) with (S (n' - S n0)) by lia. auto.
    + apply Nat.leb_gt in E. destruct (Nat.eq_dec n' n0) as [->|].
      * rewrite Nat.leb_refl, !Nat.sub_diag. unfold row_of. simpl. rewrite Nat.sub_0_r. auto.
      * replace (Nat.leb n0 n') with false by (symmetry; apply Nat.leb_gt; lia). auto.
Qed.
Lemma load_values_tight rs : forall M M', tight3 (anji M) -> load_values M rs = Some M' -> tight3 (anji M').
Proof.
  induction rs as [|[[[n j] i] v] rs IH]; simpl; intros M M' T H; [injection H as <-; auto|]. destruct (set M n j i v) eqn:E; [|discriminate].
  apply (IH a M'); auto. eapply set_tight; eauto.
Qed.
Lemma load_values_back M M0 : maxn M0 = None -> tight3 (anji M) ->
  exists M', load_values (clear M0) (print_values M) = Some M' /\ maxn M' = None /\ ptr M' = 0 /\ np2n M' = [] /\ n2np M' = [] /\ anji M' = anji M.
Proof.
  intros H0 T. destruct (load_slots (anji M) 0 (clear M0)) as (M' & E & (A1 & A2 & A3 & A4) & A5); [exact H0|intros; unfold row_of, clear; cbn [anji]; rewrite (nth_nil n); apply nth_nil|].
  unfold print_values. unfold indexed at 3. unfold indexed in E at 3 || idtac. exists M'. split; [exact E|]. repeat (split; [assumption|]).
  assert (T' : tight3 (anji M')) by (eapply load_values_tight; [|exact E]; apply tight3_nil).
  apply tight_ext; [apply T'|apply T|]. intros n. apply tight_ext; [apply T'|apply T|]. intros j.
  pose proof (A5 n j) as Q. simpl in Q. rewrite Nat.sub_0_r in Q. exact Q.
Qed.
(** reading the slot table back *)
Definition used (l : list (bool * nat)) : list (nat * nat) := map (fun p => (fst p, snd (snd p))) (filter (fun p => fst (snd p)) (indexed l)).
Lemma indexed_in {A} (l : list A) k x d : In (k, x) (indexed l) <-> k < length l /\ nth k l d = x.
Proof.
  unfold indexed. assert (H : forall l s, In (k, x) (combine (seq s (length l)) l) <-> s <= k /\ k - s < length l /\ nth (k - s) l d = x).
  { induction l0 as [|y l0 IH]; simpl; intros s; [split; [tauto|lia]|]. rewrite IH. split.
    - intros [E|(E1 & E2 & E3)]; [injection E as <- <-; rewrite Nat.sub_diag; split; auto; split; [lia|auto]|].
      replace (k - s) with (S (k - S s)) by lia. split; [lia|]. split; [lia|auto].
    - intros (E1 & E2 & E3). destruct (Nat.eq_dec k s) as [->|]; [left; rewrite Nat.sub_diag in E3; congruence|]. right. replace (k - s) with (S (k - S s)) in * by lia. split; [lia|]. split; [lia|auto]. }
  rewrite H. rewrite Nat.sub_0_r. split; [tauto|intros; split; [lia|tauto]].
Qed.
Lemma used_in l k n : In (k, n) (used l) <-> read_vec l k = (true, n).
Proof.
  unfold used. rewrite in_map_iff. split.
  - intros ([k' [b n']] & E & Hin). simpl in E. injection E as -> ->. apply filter_In in Hin. destruct Hin as [Hin Hb]. simpl in Hb. subst b.
    apply (indexed_in l k (true, n) (false, 0)) in Hin. apply Hin.
  - intros H. exists (k, (true, n)). split; auto. apply filter_In. split; auto. apply (indexed_in l k (true, n) (false, 0)). split; auto.
    destruct (Nat.lt_ge_cases k (length l)); auto. unfold read_vec in H. rewrite nth_overflow in H by auto. discriminate.
Qed.
Definition ms_step (M' : anjiM) (x : nat * nat) := {| maxn := maxn M'; ptr := ptr M'; anji := anji M'; np2n := update_vec (fst x) (true, snd x) (np2n M'); n2np := update_vec (snd x) (true, fst x) (n2np M') |}.
Lemma ms_fold l : forall M, (forall k n, In (k, n) l -> forall n', In (k, n') l -> n = n') -> (forall k n k', In (k, n) l -> In (k', n) l -> k = k') ->
  let M' := fold_left ms_step l M in maxn M' = maxn M /\ ptr M' = ptr M /\ anji M' = anji M /\
  (forall k, (exists n, In (k, n) l /\ read_vec (np2n M') k = (true, n)) \/ ((forall n, ~ In (k, n) l) /\ read_vec (np2n M') k = read_vec (np2n M) k)) /\
  (forall n, (exists k, In (k, n) l /\ read_vec (n2np M') n = (true, k)) \/ ((forall k, ~ In (k, n) l) /\ read_vec (n2np M') n = read_vec (n2np M) n)).
Proof.
  induction l as [|[k0 n0] l IH]; intros M F1 F2; simpl.
  - repeat (split; [reflexivity|]). split; intros; right; split; auto.
  - destruct (IH (ms_step M (k0, n0))) as (A1 & A2 & A3 & A4 & A5).
    { intros k n H n' H'. eapply F1; right; eauto. } { intros k n k' H H'. eapply F2; right; eauto. }
    split; [rewrite A1; auto|]. split; [rewrite A2; auto|]. split; [rewrite A3; auto|]. split.
    + intros k. destruct (A4 k) as [(n & H1 & H2)|[H1 H2]]; [left; exists n; auto|]. rewrite H2. cbn [ms_step np2n]. rewrite read_update. cbn [fst snd].
      destruct (Nat.eq_dec k k0) as [->|Hne]; [left; exists n0; auto|]. right. split; auto. intros z [E|E]; [congruence|apply (H1 z); auto].
    + intros n. destruct (A5 n) as [(k & H1 & H2)|[H1 H2]]; [left; exists k; auto|]. rewrite H2. cbn [ms_step n2np]. rewrite read_update. cbn [fst snd].
      destruct (Nat.eq_dec n n0) as [->|Hne]; [left; exists k0; auto|]. right. split; auto. intros z [E|E]; [congruence|apply (H1 z); auto].
Qed.
Lemma reload rect M s M0 : Inv rect M s -> tight3 (anji M) -> maxn M0 = None -> exists M', load M0 (print_values M) (print_ms M) = Some M' /\ Inv rect M' s /\ tight3 (anji M').
Proof.
  intros I T H0. destruct (load_values_back M M0 H0 T) as (M1 & E & A1 & A2 & A3 & A4 & A5). unfold load. rewrite E. eexists. split; [reflexivity|].
  destruct s as [m q]. destruct I as (Hm & N & I). simpl in Hm, N, I. unfold print_ms. rewrite Hm. destruct m as [m|].
  - fold (used (np2n M)). pose (M2 := {| maxn := Some m; ptr := ptr M; anji := anji M1; np2n := np2n M1; n2np := n2np M1 |}).
    change (load_ms M1 (m, ptr M, used (np2n M))) with (fold_left ms_step (used (np2n M)) M2).
    destruct m as [|k].
    + destruct I as (-> & I1 & I2). rewrite I2. simpl. split; [|rewrite A5; auto]. split; [auto|]. split; [constructor|]. simpl. rewrite A3, A4. auto.
    + destruct I as [R G].
      assert (U : forall s n, In (s, n) (used (np2n M)) <-> exists e, nth_error R s = Some e /\ sent e = n).
      { intros s n. rewrite used_in, (g_np _ _ _ _ _ G). destruct (nth_error R s) as [e|]; split.
        - intros Q; injection Q as <-. eauto. - intros (e' & Q & <-). injection Q as <-. auto. - discriminate. - intros (e' & Q & _). discriminate. }
      destruct (ms_fold (used (np2n M)) M2) as (B1 & B2 & B3 & B4 & B5).
      { intros s n H n' H'. apply U in H, H'. destruct H as (e & H & <-), H' as (e' & H' & <-). congruence. }
      { intros s n s' H H'. apply U in H, H'. destruct H as (e & H & <-), H' as (e' & H' & E'). apply (nodup_nth_sent R s s' e e'); auto. apply (g_nd _ _ _ _ _ G). }
      split; [|rewrite B3; cbn [anji M2]; subst M2; cbn [anji]; rewrite A5; auto].
      split; [rewrite B1; reflexivity|]. split; [exact N|]. cbn [fst snd]. exists R.
      constructor; try rewrite B2; try rewrite B3; subst M2; cbn [ptr anji] in *; rewrite ?A5 in *; try apply G.
      * intros s. rewrite <- (g_np _ _ _ _ _ G s). destruct (B4 s) as [(n & H1 & H2)|[H1 H2]].
        -- rewrite H2. apply used_in in H1. auto.
        -- rewrite H2. cbn [np2n]. rewrite A3. unfold read_vec at 1. rewrite nth_nil. rewrite (g_np _ _ _ _ _ G). destruct (nth_error R s) as [e|] eqn:Es; auto. exfalso. apply (H1 (sent e)). apply U. eauto.
      * intros n. destruct (B5 n) as [(s & H1 & H2)|[H1 H2]]; rewrite H2.
        -- intros _. simpl. apply U in H1. auto.
        -- cbn [n2np]. rewrite A4. unfold read_vec. rewrite nth_nil. discriminate.
      * intros s e Hs. destruct (B5 (sent e)) as [(s' & H1 & H2)|[H1 H2]].
        -- rewrite H2. f_equal. apply U in H1. destruct H1 as (e' & H1 & H3). apply (nodup_nth_sent R s' s e' e); auto. apply (g_nd _ _ _ _ _ G).
        -- exfalso. apply (H1 s). apply U. eauto.
  - split; [|cbn [anji]; rewrite A5; auto]. split; [reflexivity|]. split; [exact N|]. cbn [fst snd anji]. rewrite A5. exact I.
Qed.
Lemma reload_continue (rect : bool) os1 os2 M0 : Forall (fun o => if rect then within o else cellwise o) os1 -> Forall (fun o => if rect then within o else cellwise o) os2 -> maxn M0 = None ->
  exists M M1 M2, run anji_new os1 = Some M /\ load M0 (print_values M) (print_ms M) = Some M1 /\ run M1 os2 = Some M2 /\
  forall n j i, get M2 n j i = read (snd (spec_run (os1 ++ os2))) n j i.
Proof.
  intros F1 F2 H0. destruct (run_ok rect os1 F1 anji_new (None, []) (empty_inv rect None)) as (M & E & I).
  destruct (reload rect M _ M0 I (run_tight os1 anji_new M tight3_nil E) H0) as (M1 & E1 & I1 & _).
  destruct (run_ok rect os2 F2 M1 _ I1) as (M2 & E2 & I2). exists M, M1, M2. repeat (split; [assumption|]).
  intros. unfold spec_run. rewrite fold_left_app. apply (get_right rect); auto.
Qed.
