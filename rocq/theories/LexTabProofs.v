From Coq Require Import NArith List Bool Lia Arith ZArith.
From Verif Require Import AMap LexSpec LexTabModel.
Import ListNotations.
Open Scope N_scope.

Lemma upd_length : forall A n (x : A) l, length (upd n x l) = length l.
Proof. induction n; destruct l; simpl; auto. Qed.
Lemma upd_nth_same : forall A n (x d : A) l, (n < length l)%nat -> nth n (upd n x l) d = x.
Proof. induction n; destruct l; simpl; intros; try lia; auto. apply IHn. lia. Qed.
Lemma upd_nth_other : forall A n m (x d : A) l, m <> n -> nth m (upd n x l) d = nth m l d.
Proof. induction n; destruct l, m; simpl; intros; try congruence; auto. Qed.
Lemma grow_length : forall A (d : A) n l, length (grow d n l) = Nat.max (length l) (S (N.to_nat n)).
Proof. intros. unfold grow. rewrite app_length, repeat_length. lia. Qed.
Lemma nth_repeat_d : forall A (d : A) k n, nth n (repeat d k) d = d.
Proof. induction k; destruct n; simpl; auto. Qed.
Lemma grow_nth : forall A (d : A) n l m, nth m (grow d n l) d = nth m l d.
Proof.
  intros. unfold grow. destruct (Nat.lt_ge_cases m (length l)).
  - now rewrite app_nth1.
  - rewrite app_nth2, nth_repeat_d by auto. now rewrite nth_overflow.
Qed.

Definition num (T : lextab) (s t : N) : option N := aget N.eq_dec s (nth (N.to_nat t) (lexNumer T) []).
Definition den (T : lextab) (s : N) : option N := let e := nth (N.to_nat s) (lexDenom T) (false, 0) in if fst e then Some (snd e) else None.

Lemma num_set : forall T s t f s' t', num (setLexNumer s t f T) s' t' = if (s' =? s) && (t' =? t) then Some f else num T s' t'.
Proof.
  intros. unfold num, setLexNumer. cbn [lexNumer].
  assert (L : (N.to_nat t < length (grow [] t (lexNumer T)))%nat) by (rewrite grow_length; lia).
  destruct (N.eqb_spec t' t).
  - subst. rewrite upd_nth_same by auto. rewrite aget_aset, grow_nth. destruct (N.eq_dec s' s), (N.eqb_spec s' s); try congruence; auto.
  - rewrite upd_nth_other by lia. rewrite grow_nth. now rewrite andb_false_r.
Qed.
Lemma num_setden : forall T s d s' t', num (setLexDenom s d T) s' t' = num T s' t'.
Proof. reflexivity. Qed.
Lemma den_set : forall T s d s', den (setLexDenom s d T) s' = if s' =? s then Some d else den T s'.
Proof.
  intros. unfold den, setLexDenom. cbn [lexDenom].
  assert (L : (N.to_nat s < length (grow (false,0%N) s (lexDenom T)))%nat) by (rewrite grow_length; lia).
  destruct (N.eqb_spec s' s).
  - subst. now rewrite upd_nth_same.
  - rewrite upd_nth_other by lia. now rewrite grow_nth.
Qed.
Lemma den_setnum : forall T s t f s', den (setLexNumer s t f T) s' = den T s'.
Proof. reflexivity. Qed.

Lemma getNumer_num : forall T s t, getLexNumer T s t = match num T s t with Some f => (f, true) | None => (0, false) end.
Proof.
  intros. unfold getLexNumer, num. destruct (N.leb_spec (N.of_nat (length (lexNumer T))) t); auto.
  rewrite nth_overflow by lia. reflexivity.
Qed.

(** entries never set hold (false,0) *)
Definition wfT (T : lextab) : Prop :=
  Forall (fun e : bool * N => fst e = false -> snd e = 0) (lexDenom T) /\ Forall (fun r : list (N * N) => awf r) (lexNumer T) /\
  (lexNumer T = [] \/ last (lexNumer T) [] <> []).
Lemma getDenom_den : forall T s, wfT T -> getLexDenom T s = match den T s with Some f => (f, true) | None => (0, false) end.
Proof.
  intros T s (W & _). unfold getLexDenom, den. destruct (N.ltb_spec s (N.of_nat (length (lexDenom T)))).
  - cbv zeta. rewrite Forall_forall in W.
    assert (X : In (nth (N.to_nat s) (lexDenom T) (false,0%N)) (lexDenom T)) by (apply nth_In; lia).
    specialize (W _ X). destruct (nth (N.to_nat s) (lexDenom T) (false, 0%N)) as [[|] v]; cbn [fst snd] in *; [reflexivity|]. now rewrite W.
  - rewrite nth_overflow by lia. reflexivity.
Qed.

Lemma Forall_upd : forall A (P : A -> Prop) n x l, P x -> Forall P l -> Forall P (upd n x l).
Proof. induction n; destruct l; simpl; intros; auto; inversion H0; subst; constructor; auto. Qed.
Lemma Forall_grow : forall A (P : A -> Prop) d n l, P d -> Forall P l -> Forall P (grow d n l).
Proof. intros. unfold grow. apply Forall_app. split; auto. apply Forall_forall. intros x I. apply repeat_spec in I. now subst. Qed.
Lemma Forall_nthd : forall A (P : A -> Prop) d n l, P d -> Forall P l -> P (nth n l d).
Proof. intros. destruct (nth_in_or_default n l d) as [I|E]; [rewrite Forall_forall in H0; auto|now rewrite E]. Qed.

Lemma last_nth : forall A (l : list A) d, last l d = nth (length l - 1) l d.
Proof. induction l as [|x l IH]; intro d; auto. destruct l; auto. change (last (x :: a :: l) d) with (last (a :: l) d). rewrite IH. simpl. now rewrite Nat.sub_0_r. Qed.
Lemma aset_nonempty : forall k v (l : list (N * N)), aset N.eq_dec k v l <> [].
Proof. destruct l as [|[? ?] ?]; simpl; [discriminate|]. destruct (N.eq_dec k n); discriminate. Qed.
Lemma wf_num : forall T s t f, wfT T -> wfT (setLexNumer s t f T).
Proof.
  intros T s t f (A & B & C). unfold wfT, setLexNumer. cbn [lexNumer lexDenom].
  assert (G : Forall (fun r : list (N * N) => awf r) (grow [] t (lexNumer T))) by (apply Forall_grow; auto; apply awf_nil).
  split; auto. split.
  - apply Forall_upd; auto. apply aset_wf. apply (Forall_nthd _ (fun r => awf r)); auto. apply awf_nil.
  - right. rewrite last_nth, upd_length, grow_length.
    destruct (Nat.eq_dec (Nat.max (length (lexNumer T)) (S (N.to_nat t)) - 1) (N.to_nat t)) as [E|E].
    + rewrite E, upd_nth_same by (rewrite grow_length; lia). apply aset_nonempty.
    + rewrite upd_nth_other, grow_nth by auto. destruct C as [C|C].
      * rewrite C in E. simpl in E. lia.
      * rewrite last_nth in C. replace (Nat.max (length (lexNumer T)) (S (N.to_nat t)) - 1)%nat with (length (lexNumer T) - 1)%nat by lia. auto.
Qed.
Lemma wf_den : forall T s d, wfT T -> wfT (setLexDenom s d T).
Proof.
  intros T s d (A & B & C). unfold wfT, setLexDenom. cbn [lexNumer lexDenom]. split; [|split; auto].
  apply Forall_upd; [simpl; discriminate|]. apply Forall_grow; auto.
Qed.
Lemma wf_empty : wfT lt_empty.
Proof. split; [constructor|split; [constructor|now left]]. Qed.
Lemma wf_run_from : forall ops T, wfT T -> wfT (fold_left lex_apply ops T).
Proof. induction ops as [|[] ops IH]; intros T W; simpl; auto; apply IH; [now apply wf_num|now apply wf_den]. Qed.
Lemma wf_run : forall ops, wfT (lex_run ops).
Proof. intros. apply wf_run_from, wf_empty. Qed.

Lemma run_from_num : forall ops T s t, num (fold_left lex_apply ops T) s t = match last_num s t ops with Some f => Some f | None => num T s t end.
Proof.
  induction ops as [|o ops IH]; intros; simpl; auto. rewrite IH. destruct (last_num s t ops); auto.
  destruct o as [s' t' f|s' f]; simpl; [|reflexivity]. rewrite num_set. destruct ((s =? s') && (t =? t')); auto.
Qed.
Lemma run_from_den : forall ops T s, den (fold_left lex_apply ops T) s = match last_den s ops with Some f => Some f | None => den T s end.
Proof.
  induction ops as [|o ops IH]; intros; simpl; auto. rewrite IH. destruct (last_den s ops); auto.
  destruct o as [s' t' f|s' f]; simpl; [reflexivity|]. rewrite den_set. destruct (s =? s'); auto.
Qed.
Lemma num_empty : forall s t, num lt_empty s t = None.
Proof. intros. unfold num. simpl. destruct (N.to_nat t); reflexivity. Qed.
Lemma den_empty : forall s, den lt_empty s = None.
Proof. intros. unfold den. simpl. destruct (N.to_nat s); reflexivity. Qed.
Lemma run_num : forall ops s t, num (lex_run ops) s t = last_num s t ops.
Proof. intros. unfold lex_run. rewrite run_from_num, num_empty. now destruct last_num. Qed.
Lemma run_den : forall ops s, den (lex_run ops) s = last_den s ops.
Proof. intros. unfold lex_run. rewrite run_from_den, den_empty. now destruct last_den. Qed.

(** C29 *)
Lemma mem_numer : forall ops s t, getLexNumer (lex_run ops) s t = match last_num s t ops with Some f => (f, true) | None => (0, false) end.
Proof. intros. now rewrite getNumer_num, run_num. Qed.
Lemma mem_denom : forall ops s, getLexDenom (lex_run ops) s = match last_den s ops with Some f => (f, true) | None => (0, false) end.
Proof. intros. now rewrite getDenom_den, run_den by apply wf_run. Qed.
Lemma trans_num : forall T s t, In s (fst (getTransForTarget T t)) <-> num T s t <> None.
Proof.
  intros. unfold getTransForTarget, num. destruct (N.leb_spec (N.of_nat (length (lexNumer T))) t); cbn [fst].
  - rewrite nth_overflow by lia. simpl. tauto.
  - split; intro I.
    + intro E. apply (proj1 (aget_none _ _ _)) in E. auto.
    + destruct (aget N.eq_dec s (nth (N.to_nat t) (lexNumer T) [])) eqn:E; [|congruence]. apply aget_some_in in E. now apply (in_map fst) in E.
Qed.
Lemma trans_nodup : forall T t, wfT T -> NoDup (fst (getTransForTarget T t)).
Proof.
  intros T t (_ & B & _). unfold getTransForTarget. destruct (N.leb_spec (N.of_nat (length (lexNumer T))) t); cbn [fst]; [constructor|].
  apply (Forall_nthd _ (fun r => awf r)); auto. apply awf_nil.
Qed.
Lemma mem_trans : forall ops t, NoDup (fst (getTransForTarget (lex_run ops) t)) /\
  forall s, In s (fst (getTransForTarget (lex_run ops) t)) <-> last_num s t ops <> None.
Proof. intros. split; [apply trans_nodup, wf_run|]. intro s. now rewrite trans_num, run_num. Qed.
(** the flag tells only that some numerator was set for t or a larger target word *)
Lemma flag_wf : forall T t, wfT T -> (snd (getTransForTarget T t) = true <-> exists s t', t <= t' /\ num T s t' <> None).
Proof.
  intros T t W. pose proof W as (_ & _ & C). unfold getTransForTarget.
  destruct (N.leb_spec (N.of_nat (length (lexNumer T))) t) as [L|L]; cbn [snd].
  - split; [discriminate|]. intros (s & t' & Ht & X). unfold num in X. rewrite nth_overflow in X by lia. now simpl in X.
  - split; auto. intros _. destruct C as [C|C]; [rewrite C in L; simpl in L; lia|].
    rewrite last_nth in C. destruct (nth (length (lexNumer T) - 1) (lexNumer T) []) as [|[s f] r] eqn:E; [congruence|].
    exists s, (N.of_nat (length (lexNumer T) - 1)). split; [lia|]. unfold num. rewrite Nnat.Nat2N.id, E. simpl. destruct (N.eq_dec s s); congruence.
Qed.
Lemma mem_flag : forall ops t, snd (getTransForTarget (lex_run ops) t) = true <-> exists s t', t <= t' /\ last_num s t' ops <> None.
Proof.
  intros. rewrite flag_wf by apply wf_run. split; intros (s & t' & A & B); exists s, t'; [rewrite run_num in B|rewrite run_num]; auto.
Qed.

(** C30 *)
Lemma un_le : forall x, x < 2^32 -> un32 (x mod 256) ((x / 256) mod 256) ((x / 65536) mod 256) ((x / 16777216) mod 256) = x.
Proof.
  intros x L. unfold un32.
  assert (A := N.div_mod x 256 ltac:(lia)). assert (B := N.div_mod (x/256) 256 ltac:(lia)).
  assert (C := N.div_mod (x/65536) 256 ltac:(lia)).
  replace (x / 65536) with (x / 256 / 256) in * by (rewrite N.div_div by lia; reflexivity).
  replace (x / 16777216) with (x / 256 / 256 / 256) in * by (rewrite !N.div_div by lia; reflexivity).
  assert (D : x / 256 / 256 / 256 < 256). { rewrite !N.div_div by lia. apply N.div_lt_upper_bound; [lia|]. exact L. }
  rewrite (N.mod_small (x / 256 / 256 / 256) 256) by auto. lia.
Qed.
Definition lrec := (N * N * N * N)%type.
Definition rbytes (r : lrec) : list N := let '(s, t, f, d) := r in rec_bytes s t f d.
Definition rok (r : lrec) : Prop := let '(s, t, f, d) := r in s < 2^32 /\ t < 2^32 /\ f < 2^32 /\ d < 2^32.
Definition rset (T : lextab) (r : lrec) : lextab := let '(s, t, f, d) := r in setLexNumDen s t f d T.
Lemma load_records : forall R fuel T, Forall rok R -> (length R <= fuel)%nat ->
  load_loop fuel (flat_map rbytes R) T = Some (fold_left rset R T).
Proof.
  induction R as [|[[[s t] f] d] R IH]; intros fuel T O L; [destruct fuel; reflexivity|].
  inversion O as [|? ? HR O']; subst. destruct HR as (Hs & Ht & Hf & Hd). destruct fuel as [|fuel]; [simpl in L; lia|].
  cbn [flat_map fold_left]. unfold rbytes at 1, rec_bytes, le32. cbn [app load_loop]. rewrite !un_le by auto. apply IH; auto. simpl in L. lia.
Qed.
Fixpoint recs (T : lextab) (t : nat) (rows : list (list (N * N))) : list lrec :=
  match rows with
  | [] => []
  | r :: rs => map (fun e => (fst e, N.of_nat t, snd e, fst (getLexDenom T (fst e)))) r ++ recs T (S t) rs
  end.
Lemma print_recs : forall T rows t, print_rows T t rows = flat_map rbytes (recs T t rows).
Proof.
  induction rows as [|r rows IH]; intro t; auto. simpl. rewrite flat_map_app, IH. f_equal.
  induction r as [|e r IHr]; simpl; auto. now rewrite IHr.
Qed.
Lemma in_recs : forall T rows k r, In r (recs T k rows) <->
  exists s t f, r = (s, N.of_nat (k + t), f, fst (getLexDenom T s)) /\ (t < length rows)%nat /\ In (s, f) (nth t rows []).
Proof.
  induction rows as [|row rows IH]; intros k r; simpl.
  - split; [tauto|]. intros (? & ? & ? & _ & L & _). lia.
  - rewrite in_app_iff, in_map_iff, IH. split.
    + intros [([s f] & E & I)|(s & t & f & E & L & I)].
      * exists s, 0%nat, f. rewrite Nat.add_0_r. split; [auto|]. split; [lia|auto].
      * exists s, (S t), f. rewrite <- plus_n_Sm. split; [auto|]. split; [lia|auto].
    + intros (s & [|t] & f & E & L & I).
      * left. exists (s, f). rewrite Nat.add_0_r in E. auto.
      * right. exists s, t, f. rewrite <- plus_n_Sm in E. split; [auto|]. split; [lia|auto].
Qed.
Definition rops (r : lrec) : list lex_op := let '(s, t, f, d) := r in [OpDen s d; OpNum s t f].
Lemma rset_ops : forall R T, fold_left rset R T = fold_left lex_apply (flat_map rops R) T.
Proof. induction R as [|[[[s t] f] d] R IH]; intro T; auto. simpl. now rewrite IH. Qed.
Lemma last_num_in : forall ops s t f, last_num s t ops = Some f -> In (OpNum s t f) ops.
Proof.
  induction ops as [|o ops IH]; intros s t f; simpl; [discriminate|]. destruct (last_num s t ops) eqn:E.
  - intro X. inversion X; subst. auto.
  - destruct o as [s' t' f'|]; [|discriminate]. destruct ((s =? s') && (t =? t')) eqn:Q; [|discriminate].
    apply andb_true_iff in Q. destruct Q as [Q1 Q2]. apply N.eqb_eq in Q1. apply N.eqb_eq in Q2. intro X. inversion X; subst. auto.
Qed.
Lemma last_num_ex : forall ops s t f, In (OpNum s t f) ops -> last_num s t ops <> None.
Proof.
  induction ops as [|o ops IH]; intros s t f; simpl; [tauto|]. intros [E|I].
  - subst. rewrite !N.eqb_refl. simpl. destruct (last_num s t ops); discriminate.
  - apply IH in I. now destruct (last_num s t ops).
Qed.
Lemma last_den_in : forall ops s f, last_den s ops = Some f -> In (OpDen s f) ops.
Proof.
  induction ops as [|o ops IH]; intros s f; simpl; [discriminate|]. destruct (last_den s ops) eqn:E.
  - intro X. inversion X; subst. auto.
  - destruct o as [|s' f']; [discriminate|]. destruct (N.eqb_spec s s') as [Q|]; [|discriminate]. intro X. inversion X; subst. auto.
Qed.
Lemma last_den_ex : forall ops s f, In (OpDen s f) ops -> last_den s ops <> None.
Proof.
  induction ops as [|o ops IH]; intros s f; simpl; [tauto|]. intros [E|I].
  - subst. rewrite !N.eqb_refl. destruct (last_den s ops); discriminate.
  - apply IH in I. now destruct (last_den s ops).
Qed.
Lemma in_rops_num : forall R s t f, In (OpNum s t f) (flat_map rops R) <-> exists d, In (s, t, f, d) R.
Proof.
  intros. rewrite in_flat_map. split.
  - intros ([[[s' t'] f'] d'] & I & [X|[X|[]]]); inversion X; subst; eauto.
  - intros (d & I). exists (s, t, f, d). simpl. auto.
Qed.
Lemma in_rops_den : forall R s d, In (OpDen s d) (flat_map rops R) <-> exists t f, In (s, t, f, d) R.
Proof.
  intros. rewrite in_flat_map. split.
  - intros ([[[s' t'] f'] d'] & I & [X|[X|[]]]); inversion X; subst; eauto.
  - intros (t & f & I). exists (s, t, f, d). simpl. auto.
Qed.
Lemma in_recs_num : forall T s t f d, wfT T -> (In (s, t, f, d) (recs T 0 (lexNumer T)) <-> num T s t = Some f /\ d = fst (getLexDenom T s)).
Proof.
  intros T s t f d (_ & B & _). rewrite in_recs. simpl. split.
  - intros (s' & n & f' & E & L & I). inversion E; subst. split; auto. unfold num. rewrite Nnat.Nat2N.id. apply aget_in; auto.
    apply (Forall_nthd _ (fun r => awf r)); auto. apply awf_nil.
  - intros (E & ->). exists s, (N.to_nat t), f. rewrite Nnat.N2Nat.id. split; auto. unfold num in E. split.
    + destruct (Nat.lt_ge_cases (N.to_nat t) (length (lexNumer T))); auto. rewrite nth_overflow in E by auto. discriminate.
    + now apply aget_some_in in E.
Qed.
Lemma recs_length : forall T rows t, (length (recs T t rows) <= length (flat_map rbytes (recs T t rows)))%nat.
Proof.
  intros. induction (recs T t rows) as [|[[[? ?] ?] ?] R IH]; [auto|]. cbn [flat_map length]. rewrite app_length. unfold rbytes at 1, rec_bytes, le32. cbn [app length]. lia.
Qed.
Definition vals_ok (T : lextab) : Prop :=
  (forall s t f, num T s t = Some f -> s < 2^32 /\ f < 2^32) /\ (forall s f, den T s = Some f -> f < 2^32).
Lemma run_vals : forall ops, Forall op_ok ops -> vals_ok (lex_run ops).
Proof.
  intros ops O. rewrite Forall_forall in O. split; intros.
  - rewrite run_num in H. apply last_num_in in H. apply O in H. simpl in H. lia.
  - rewrite run_den in H. apply last_den_in in H. apply O in H. simpl in H. lia.
Qed.
Definition small_op (o : lex_op) : Prop := match o with OpNum _ t _ => t < 2^32 - 1 | OpDen _ _ => True end.
Lemma run_size : forall ops, Forall small_op ops -> N.of_nat (length (lexNumer (lex_run ops))) < 2^32.
Proof.
  intros ops O. destruct (N.ltb_spec (N.of_nat (length (lexNumer (lex_run ops)))) (2^32)) as [|G]; auto. exfalso.
  assert (F : snd (getTransForTarget (lex_run ops) (2^32 - 1)) = true).
  { unfold getTransForTarget. destruct (N.leb_spec (N.of_nat (length (lexNumer (lex_run ops)))) (2^32 - 1)); [lia|reflexivity]. }
  apply mem_flag in F. destruct F as (s & t & L & X). destruct (last_num s t ops) eqn:E; [|congruence].
  apply last_num_in in E. rewrite Forall_forall in O. apply O in E. unfold small_op in E. lia.
Qed.
Lemma load_print : forall T, wfT T -> vals_ok T -> N.of_nat (length (lexNumer T)) < 2^32 ->
  exists bs T', printBin T = Some bs /\ loadBin bs = Some T' /\ wfT T' /\
    (forall s t, num T' s t = num T s t) /\
    (forall s, (exists t, num T s t <> None) -> den T' s = Some (fst (getLexDenom T s))) /\
    (forall s, (forall t, num T s t = None) -> den T' s = None).
Proof.
  intros T W (V1 & V2) L. unfold printBin. destruct (N.ltb_spec (N.of_nat (length (lexNumer T))) (2^32)); [|lia].
  eexists; exists (fold_left rset (recs T 0 (lexNumer T)) lt_empty). split; [reflexivity|].
  assert (RL : loadBin (print_rows T 0 (lexNumer T)) = Some (fold_left rset (recs T 0 (lexNumer T)) lt_empty)).
  { unfold loadBin. rewrite print_recs. apply load_records; [|apply recs_length].
    apply Forall_forall. intros [[[s t] f] d] I. apply (proj1 (in_recs _ _ _ _)) in I as I2. apply in_recs_num in I; auto. destruct I as (E & D).
    destruct I2 as (s0 & t0 & f0 & E0 & L0 & _). inversion E0; subst. destruct (V1 _ _ _ E). unfold rok. split; [auto|]. split; [simpl in *; lia|]. split; [auto|].
    rewrite getDenom_den by auto. destruct (den T s0) eqn:Ed; [apply V2 in Ed; simpl; lia|reflexivity]. }
  split; [exact RL|]. rewrite rset_ops. split; [apply wf_run_from, wf_empty|].
  pose proof (fun s t f d => in_recs_num T s t f d W) as IR. change (fold_left lex_apply ?o lt_empty) with (lex_run o).
  split; [|split].
  - intros. rewrite run_num. destruct (last_num s t (flat_map rops (recs T 0 (lexNumer T)))) as [f|] eqn:E.
    + apply last_num_in, in_rops_num in E. destruct E as (d & E). apply IR in E. now destruct E.
    + destruct (num T s t) as [f|] eqn:E2; auto. exfalso.
      assert (I : In (OpNum s t f) (flat_map rops (recs T 0 (lexNumer T)))) by (apply in_rops_num; exists (fst (getLexDenom T s)); apply IR; auto).
      now apply last_num_ex in I.
  - intros s (t & X). rewrite run_den. destruct (num T s t) as [f|] eqn:E; [|congruence].
    assert (I : In (OpDen s (fst (getLexDenom T s))) (flat_map rops (recs T 0 (lexNumer T)))) by (apply in_rops_den; exists t, f; apply IR; auto).
    apply last_den_ex in I. destruct (last_den s (flat_map rops (recs T 0 (lexNumer T)))) as [d|] eqn:E2; [|congruence].
    apply last_den_in, in_rops_den in E2. destruct E2 as (t2 & f2 & E2). apply IR in E2. now destruct E2 as (_ & ->).
  - intros s X. rewrite run_den. destruct (last_den s (flat_map rops (recs T 0 (lexNumer T)))) as [d|] eqn:E2; auto.
    apply last_den_in, in_rops_den in E2. destruct E2 as (t2 & f2 & E2). apply IR in E2. destruct E2 as (E2 & _). now rewrite X in E2.
Qed.
Lemma roundtrip : forall ops, Forall op_ok ops -> Forall small_op ops ->
  exists bs T', printBin (lex_run ops) = Some bs /\ loadBin bs = Some T' /\
    (forall s t, getLexNumer T' s t = getLexNumer (lex_run ops) s t) /\
    (forall s, (exists t, last_num s t ops <> None) -> getLexDenom T' s = (fst (getLexDenom (lex_run ops) s), true)) /\
    (forall s, (forall t, last_num s t ops = None) -> getLexDenom T' s = (0, false)) /\
    (forall t, snd (getTransForTarget T' t) = snd (getTransForTarget (lex_run ops) t) /\
               forall s, In s (fst (getTransForTarget T' t)) <-> In s (fst (getTransForTarget (lex_run ops) t))).
Proof.
  intros ops O So. destruct (load_print (lex_run ops) (wf_run ops) (run_vals ops O) (run_size ops So)) as (bs & T' & P & L & W & A & B & C).
  exists bs, T'. split; [exact P|]. split; [exact L|]. split; [|split; [|split]].
  - intros. now rewrite !getNumer_num, A.
  - intros s (t & X). rewrite (getDenom_den T') by auto. rewrite B; auto. exists t. now rewrite run_num.
  - intros s X. rewrite getDenom_den by auto. rewrite C; auto. intro t. now rewrite run_num.
  - intro t. split.
    + apply eq_true_iff_eq. rewrite !flag_wf by (auto using wf_run). split; intros (s & t' & ? & X); exists s, t'; rewrite A in *; auto.
    + intro s. now rewrite !trans_num, A.
Qed.
