(** Proofs about online learning of phrase pairs. *)
From Coq Require Import Ascii String ZArith List Bool Arith Lia.
From Verif Require Import TextSpec OnlModel OnlSpec.
Import ListNotations.
Local Open Scope nat_scope.

Lemma incr_all : forall c l f q, fold_left (incr c) l f q = (f q + c * occ q l)%Z.
Proof.
  intros c l. induction l as [|p l IH]; intros f q; cbn [fold_left]; [unfold occ; cbn; lia|]. rewrite IH. unfold incr, occ. cbn [count_occ].
  destruct (ppair_dec p q); lia.
Qed.
Lemma nth_grow : forall n m s, nth m (grow n s) [] = nth m s [].
Proof.
  intros n m s. unfold grow. destruct (Nat.ltb_spec m (length s)) as [L|L]; [now rewrite app_nth1|]. rewrite app_nth2, (nth_overflow s) by lia.
  destruct (Nat.ltb_spec (m - length s) (S n - length s)) as [X|X]; [apply nth_repeat|apply nth_overflow; rewrite repeat_length; lia].
Qed.
Lemma grow_length : forall n s, n < length (grow n s).
Proof. intros. unfold grow. rewrite app_length, repeat_length. lia. Qed.
Lemma nth_set : forall n m v s, n < length s -> nth m (set_at n v s) [] = if n =? m then v else nth m s [].
Proof.
  intros n m v s L. unfold set_at. destruct (Nat.eqb_spec n m) as [->|N].
  - rewrite app_nth2; rewrite firstn_length_le by lia; [|lia]. now rewrite Nat.sub_diag.
  - destruct (Nat.ltb_spec m n) as [X|X].
    + rewrite app_nth1 by (rewrite firstn_length_le; lia). rewrite <- (firstn_skipn n s) at 2. now rewrite app_nth1 by (rewrite firstn_length_le; lia).
    + rewrite app_nth2; rewrite firstn_length_le by lia; [|lia]. replace (m - n) with (S (m - S n)) by lia. cbn [nth].
      rewrite <- (firstn_skipn (S n) s) at 2. rewrite app_nth2; rewrite firstn_length_le by lia; [|lia]. reflexivity.
Qed.
Lemma once_put : forall log p n l B,
  once_each ((n, l) :: log) p B = (once_each log p B + (if (n <? B)%nat then occ p l - occ p (latest log n) else 0))%Z.
Proof.
  intros log p n l. induction B as [|b IH]; [reflexivity|]. cbn [once_each latest]. rewrite IH.
  destruct (Nat.eqb_spec n b) as [E|N]; [subst b|]; destruct (Nat.ltb_spec n n), (Nat.ltb_spec n (S n)); try lia.
  destruct (Nat.ltb_spec n b), (Nat.ltb_spec n (S b)); lia.
Qed.
(** samples up to [bound] (excluded) may have been discarded *)
Definition inv (cnt0 : ppair -> Z) (bound : Z) (B : nat) (log : list (nat * list ppair)) (st : onl) : Prop :=
  (forall p, o_cnt st p = (cnt0 p + once_each log p B)%Z) /\
  (forall n, nth n (o_store st) [] = latest log n \/ ((Z.of_nat n < bound)%Z /\ nth n (o_store st) [] = [])).
Lemma add_inv : forall cnt0 bound B log st n vec, inv cnt0 bound B log st -> n < B -> (bound <= Z.of_nat n)%Z ->
  inv cnt0 bound B ((n, vec) :: log) (addNewTransOpts vec n st).
Proof.
  intros cnt0 bound B log st n vec [C ST] L G. split.
  - intro p. cbn [addNewTransOpts o_cnt]. rewrite !incr_all, C, once_put, nth_grow. destruct (Nat.ltb_spec n B); [|lia].
    destruct (ST n) as [E|[X _]]; [rewrite E; lia|lia].
  - intro m. cbn [addNewTransOpts o_store latest]. rewrite nth_set by apply grow_length. destruct (Nat.eqb_spec n m); auto. rewrite nth_grow. apply ST.
Qed.
Lemma iter_inv : forall E R ex k cnt0 B is_ log st, 1 <= E -> R mod E = 0 -> k < B -> Forall (fun i => 1 <= i <= E) is_ ->
  let bound := (Z.of_nat k - Z.of_nat ((E - 1) * (R / E)))%Z in
  inv cnt0 bound B log st ->
  inv cnt0 bound B (rev (flat_map (fun i => if R <=? k + i * (R / E) then [(k + i * (R / E) - R, ex k i)] else []) is_) ++ log)
    (fold_left (fun st i => let n := (Z.of_nat k - Z.of_nat R + Z.of_nat (i * (R / E)))%Z in
                            if (0 <=? n)%Z then addNewTransOpts (ex k i) (Z.to_nat n) st else st) is_ st).
Proof.
  intros E R ex k cnt0 B is_ log st LE D LB F bound. revert log st. induction is_ as [|i is_ IH]; intros log st I; [exact I|].
  inversion F as [|? ? Fi F']; subst. cbn [flat_map fold_left]. rewrite rev_app_distr, <- app_assoc. apply IH; auto. clear IH.
  assert (DR : R = E * (R / E)) by (apply Nat.div_exact; lia). set (d := R / E) in *.
  assert (LI : d <= i * d) by nia. assert (LU : i * d <= R) by nia. assert (LQ : R = (E - 1) * d + d) by nia.
  destruct (Nat.leb_spec R (k + i * d)) as [X|X]; destruct (Z.leb_spec 0 (Z.of_nat k - Z.of_nat R + Z.of_nat (i * d))) as [Y|Y]; try lia; [|exact I].
  cbn [rev app]. replace (Z.to_nat (Z.of_nat k - Z.of_nat R + Z.of_nat (i * d))) with (k + i * d - R) by lia.
  apply add_inv; [exact I|lia|]. unfold bound. lia.
Qed.
Lemma step_inv : forall E R ex k cnt0 B log st, 1 <= E -> R mod E = 0 -> k < B ->
  inv cnt0 (Z.of_nat k - Z.of_nat ((E - 1) * (R / E))) B log st ->
  exists st', trainAligModel E R ex k st = Some st' /\ inv cnt0 (Z.of_nat (S k) - Z.of_nat ((E - 1) * (R / E))) B (rev (visits E R ex k) ++ log) st'.
Proof.
  intros E R ex k cnt0 B log st LE D LB I. unfold trainAligModel. destruct (Nat.eqb_spec E 0); [lia|].
  assert (F : Forall (fun i => 1 <= i <= E) (seq 1 E)). { apply Forall_forall. intros i Hi. apply in_seq in Hi. lia. }
  generalize (iter_inv E R ex k cnt0 B (seq 1 E) log st LE D LB F I). cbn zeta. fold (visits E R ex k).
  set (st1 := fold_left _ _ st). intros [C ST]. eexists; split; [reflexivity|].
  set (b := (Z.of_nat k - Z.of_nat ((E - 1) * (R / E)))%Z) in *. replace (Z.of_nat (S k) - Z.of_nat ((E - 1) * (R / E)))%Z with (b + 1)%Z by (unfold b; lia).
  assert (W : inv cnt0 (b + 1) B (rev (visits E R ex k) ++ log) st1). { split; auto. intro m1. destruct (ST m1) as [?|[? ?]]; auto. right. split; auto. lia. }
  destruct (Z.leb_spec 0 b) as [X|X]; [|exact W].
  destruct ((0 <? Z.to_nat b) && (Z.to_nat b <? length (o_store st1))) eqn:Y; [|exact W]. apply andb_true_iff in Y. destruct Y as [_ Y]. apply Nat.ltb_lt in Y.
  split; [exact C|]. intro n1. cbn [o_store]. rewrite nth_set by exact Y. destruct (Nat.eqb_spec (Z.to_nat b) n1) as [<-|N]; [right; split; auto; lia|apply W].
Qed.
Lemma run_inv : forall E R ex k0 cnt0 B len, 1 <= E -> R mod E = 0 -> k0 + len <= B ->
  exists st, train_run E R ex k0 len cnt0 = Some st /\
    inv cnt0 (Z.of_nat (k0 + len) - Z.of_nat ((E - 1) * (R / E))) B (rev (visit_log E R ex k0 len)) st.
Proof.
  intros E R ex k0 cnt0 B len LE D. induction len as [|len IH]; intro LB.
  - exists (mkonl cnt0 []). split; [reflexivity|]. split; [|intro n; left; cbn; now destruct n].
    intro p. cbn [o_cnt]. replace (once_each _ p B) with 0%Z; [lia|]. unfold visit_log. cbn [seq flat_map rev]. clear. induction B as [|b IH]; cbn; lia.
  - destruct IH as (st & E1 & I); [lia|]. unfold train_run in *. rewrite seq_S, fold_left_app, E1. cbn [fold_left].
    destruct (step_inv E R ex (k0 + len) cnt0 B (rev (visit_log E R ex k0 len)) st LE D ltac:(lia) I) as (st' & E2 & I2).
    exists st'. split; auto. rewrite Nat.add_succ_r. unfold visit_log in *. rewrite seq_S, flat_map_app, rev_app_distr. cbn [flat_map]. rewrite app_nil_r. exact I2.
Qed.
Lemma visits_when : forall E R ex n k, 1 <= E -> R mod E = 0 -> In n (map fst (visits E R ex k)) <-> exists j, j < E /\ k = n + j * (R / E).
Proof.
  intros E R ex n k LE D. assert (DR : R = E * (R / E)) by (apply Nat.div_exact; lia). unfold visits. set (d := R / E) in *.
  rewrite in_map_iff. split.
  - intros ([m l] & <- & I). apply in_flat_map in I. destruct I as (i & Hi & I). apply in_seq in Hi.
    destruct (Nat.leb_spec R (k + i * d)) as [X|X]; [|contradiction]. destruct I as [E1|[]]. injection E1 as <- _. cbn [fst]. exists (E - i). split; [lia|].
    rewrite Nat.mul_sub_distr_r. nia.
  - intros (j & Lj & ->). exists (n, ex (n + j * d) (E - j)). split; auto. apply in_flat_map. exists (E - j). split; [apply in_seq; lia|].
    assert (S1 : (E - j) * d = R - j * d) by (rewrite Nat.mul_sub_distr_r; lia). assert (S2 : j * d <= R) by nia.
    destruct (Nat.leb_spec R (n + j * d + (E - j) * d)) as [X|X]; [|lia]. left. f_equal. lia.
Qed.
