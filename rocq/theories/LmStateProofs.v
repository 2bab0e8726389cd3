From Coq Require Import Ascii String Arith List Bool Reals Lra Lia.
From Verif Require Import LmSpec LmStateModel LmStateSpec.
Import ListNotations.
Open Scope nat_scope.

Lemma upd_app : forall A (l : list A) y r x, upd (length l) x (l ++ y :: r) = Some (l ++ x :: r).
Proof. intros A l y r x. induction l as [|z l IH]; cbn [upd length app]; [reflexivity|now rewrite IH]. Qed.
Lemma nth_app : forall A (l : list A) y r, nth_error (l ++ y :: r) (length l) = Some y.
Proof. intros A l y r. induction l; auto. Qed.

(** after some iterations: the words already moved, then the last word moved (still in place), then the rest *)
Lemma shift_ok : forall A (r l : list A) y fuel, length r <= fuel ->
  shift_loop fuel (S (length l)) (l ++ y :: r) = Some (l ++ r ++ [last (y :: r) y]).
Proof.
  intros A r. induction r as [|z r IH]; intros l y fuel L.
  - destruct fuel; cbn [shift_loop]; [reflexivity|]. replace (S (length l) <? length (l ++ [y])) with false; [reflexivity|].
    symmetry. apply Nat.ltb_ge. rewrite app_length. cbn [length]. lia.
  - destruct fuel as [|f]; [cbn [length] in L; lia|]. cbn [shift_loop].
    replace (S (length l) <? length (l ++ y :: z :: r)) with true by (symmetry; apply Nat.ltb_lt; rewrite app_length; cbn [length]; lia).
    replace (nth_error (l ++ y :: z :: r) (S (length l))) with (Some z).
    2:{ replace (l ++ y :: z :: r) with ((l ++ [y]) ++ z :: r) by now rewrite <- app_assoc. replace (S (length l)) with (length (l ++ [y])) by (rewrite app_length; cbn; lia).
        now rewrite nth_app. }
    replace (S (length l) - 1) with (length l) by lia. rewrite upd_app.
    replace (l ++ z :: z :: r) with ((l ++ [z]) ++ z :: r) by now rewrite <- app_assoc.
    replace (S (S (length l))) with (S (length (l ++ [z]))) by (rewrite app_length; cbn; lia).
    rewrite IH by (cbn [length] in L; lia). rewrite <- app_assoc. cbn [app]. f_equal. f_equal. f_equal. f_equal.
    destruct r as [|x r]; [reflexivity|]. cbn [last]. destruct r; auto. clear. revert a. induction r as [|b r IH]; intro a; auto. destruct r; auto. apply (IH b).
Qed.
Lemma add_word : forall A (w : A) st, addNextWordToState w st = Some (match st with [] => [] | _ :: r => r ++ [w] end).
Proof.
  intros A w st. unfold addNextWordToState. destruct st as [|y r]; [reflexivity|].
  pose proof (shift_ok A r [] y (length (y :: r)) ltac:(cbn [length]; lia)) as E. cbn [length app] in E. cbn [length]. rewrite E.
  replace (0 <? length (r ++ [last (y :: r) y])) with true by (symmetry; apply Nat.ltb_lt; rewrite app_length; cbn; lia).
  rewrite app_length. cbn [length]. replace (length r + 1 - 1) with (length r) by lia. apply upd_app.
Qed.
Lemma push_bos_ok : forall n b st, push_bos n b st = st ++ repeat b n.
Proof.
  induction n as [|n IH]; intros b st; cbn [push_bos repeat]; [now rewrite app_nil_r|]. rewrite IH, <- app_assoc. reflexivity.
Qed.
Lemma begin_ok : forall order b, getStateForBeginOfSentence order b = context b (order - 1) [].
Proof.
  intros order b. unfold getStateForBeginOfSentence, context, last_n. rewrite app_nil_r, repeat_length.
  replace (order - 1 - (order - 1)) with 0 by lia. cbn [skipn]. destruct (Nat.ltb_spec 0 order).
  - rewrite push_bos_ok. reflexivity.
  - replace (order - 1) with 0 by lia. reflexivity.
Qed.
Lemma context_length : forall A (b : A) n p, length (context b n p) = n.
Proof. intros. unfold context, last_n. rewrite skipn_length, app_length, repeat_length. lia. Qed.
Lemma skipn_S : forall A k (l : list A), skipn (S k) l = tl (skipn k l).
Proof. intros A k. induction k as [|k IH]; intros [|x l]; auto. change (skipn (S (S k)) (x :: l)) with (skipn (S k) l). rewrite IH. reflexivity. Qed.
Lemma context_step : forall A (b : A) n p w, addNextWordToState w (context b n p) = Some (context b n (p ++ [w])).
Proof.
  intros A b n p w. rewrite add_word. f_equal. unfold context, last_n.
  rewrite !app_length, repeat_length. cbn [length]. replace (n + length p - n) with (length p) by lia. replace (n + (length p + 1) - n) with (S (length p)) by lia.
  assert (E : length (repeat b n ++ p) = n + length p) by (rewrite app_length, repeat_length; lia).
  rewrite app_assoc. set (l := repeat b n ++ p) in *. clearbody l. clear -E.
  assert (G : forall k (l : list A), k <= length l -> match skipn k l with [] => [] | _ :: r => r ++ [w] end = (match skipn k l with [] => [] | _ :: r => skipn (S k) (l ++ [w]) end)).
  { intros k l' L. destruct (skipn k l') eqn:Q; auto. rewrite skipn_app. replace (S k - length l') with 0.
    - rewrite skipn_S, Q. reflexivity.
    - assert (length (skipn k l') > 0) by (rewrite Q; cbn; lia). rewrite skipn_length in H. lia. }
  rewrite G by lia. destruct (skipn (length p) l) eqn:Q; auto.
  assert (length (skipn (length p) l) = 0) by now rewrite Q. rewrite skipn_length in H. assert (n = 0) by lia. subst n.
  symmetry. apply skipn_all2. rewrite app_length. cbn [length]. lia.
Qed.
Lemma states_ok : forall A (ws : list A) b n p, run_state ws (context b n p) = Some (context b n (p ++ ws)).
Proof.
  intros A ws. induction ws as [|w ws IH]; intros b n p; cbn [run_state]; [now rewrite app_nil_r|]. rewrite context_step, IH, <- app_assoc. reflexivity.
Qed.

Lemma rev_copy_ok : forall s, rev_copy s = rev s.
Proof.
  intro s. unfold rev_copy. apply nth_ext with (d := 0) (d' := 0); [now rewrite map_length, seq_length, rev_length|].
  intros i L. rewrite map_length, seq_length in L. rewrite (nth_indep _ 0 (nth (length s - 1 - 0) s 0)) by (rewrite map_length, seq_length; auto).
  rewrite (map_nth (fun i => nth (length s - 1 - i) s 0)). rewrite seq_nth by auto. rewrite rev_nth by auto. f_equal. lia.
Qed.
Section LM.
Variable lgp : nat -> list nat -> R.
Variables bos eos order : nat.
Lemma sent_loop_ok : forall todo p total,
  sent_loop lgp (length todo) (rev (p ++ todo)) (context bos (order - 1) p) total =
  Some ((total + rsum (map (fun i => lgp (nth i todo 0%nat) (context bos (order - 1)%nat (p ++ firstn i todo)%list)) (seq 0 (length todo))))%R, context bos (order - 1) (p ++ todo)).
Proof.
  induction todo as [|w todo IH]; intros p total; cbn [length sent_loop seq map rsum fold_right].
  - f_equal. f_equal; [unfold rsum; cbn; lra|]. now rewrite app_nil_r.
  - rewrite rev_app_distr. cbn [rev]. rewrite <- app_assoc. cbn [app].
    replace (nth_error (rev todo ++ w :: rev p) (length todo)) with (Some w) by (rewrite <- (rev_length todo); symmetry; apply nth_app).
    unfold getNgramLgProbGivenState. rewrite context_step.
    replace (rev todo ++ w :: rev p) with (rev ((p ++ [w]) ++ todo)) by (rewrite !rev_app_distr; cbn; now rewrite <- ?app_assoc).
    rewrite IH. f_equal. f_equal; [|now rewrite <- app_assoc].
    rewrite <- seq_shift, map_map. unfold rsum. cbn [map nth firstn fold_right]. rewrite app_nil_r.
    replace (map (fun i => lgp (nth i todo 0) (context bos (order - 1) ((p ++ [w]) ++ firstn i todo))) (seq 0 (length todo))) with
            (map (fun x => lgp (nth (S x) (w :: todo) 0) (context bos (order - 1) (p ++ firstn (S x) (w :: todo)))) (seq 0 (length todo))); [idtac|].
    1:{ cbn [nth firstn]. lra. }
    apply map_ext. intro i. cbn [nth firstn]. now rewrite <- app_assoc.
Qed.
Lemma sentence_ok : forall s, getSentenceLog10Prob lgp bos eos order s = Some (sentence_lg lgp bos eos order s / ln 10)%R.
Proof.
  intro s. unfold getSentenceLog10Prob. rewrite rev_copy_ok, rev_length, begin_ok. pose proof (sent_loop_ok s [] 0%R) as E. cbn [app] in E. rewrite E.
  unfold getLgProbEndGivenState. rewrite context_step. unfold sentence_lg. f_equal. unfold Rdiv. lra.
Qed.

Variable stoi : string -> nat.
Let sc (l : list string) : R := (sentence_lg lgp bos eos order (map stoi l) / ln 10)%R.
Lemma perp_loop_ok : forall lines logp nw ns total, (forall l, In l lines -> l <> []) ->
  perp_loop lgp bos eos order stoi lines logp nw ns total =
  Some (nw + length (concat lines), ns + length lines, (total + rsum (map sc lines))%R).
Proof.
  induction lines as [|v r IH]; intros logp nw ns total NE; cbn [perp_loop concat map length].
  - unfold rsum. cbn [fold_right]. rewrite !Nat.add_0_r. f_equal. f_equal. lra.
  - assert (v <> []) by (apply NE; now left). destruct v as [|x v]; [congruence|]. unfold getSentenceLog10ProbStr. rewrite sentence_ok.
    rewrite IH by (intros; apply NE; now right). rewrite app_length. f_equal. f_equal; [f_equal; lia|]. unfold rsum. cbn [fold_right map]. unfold sc. cbn [map]. lra.
Qed.
Lemma blank_line : forall v lines logp nw ns total, v <> [] ->
  perp_loop lgp bos eos order stoi (v :: [] :: lines) logp nw ns total =
  perp_loop lgp bos eos order stoi lines (Some (sc v)) (nw + length v) (S (S ns)) (total + sc v + sc v)%R.
Proof.
  intros v lines logp nw ns total N. destruct v as [|x v]; [congruence|]. cbn [perp_loop]. unfold getSentenceLog10ProbStr. rewrite sentence_ok. reflexivity.
Qed.
End LM.
