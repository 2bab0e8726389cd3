From Coq Require Import Reals NArith Arith List Bool Lra Lia.
From Verif Require Import RSums MathModel MathProofs LogNum HmmSpec HmmModel.
Import ListNotations.
Open Scope R_scope.
Lemma last_cons : forall {A} (a : list A) x d, last (x :: a) d = last a x.
Proof. induction a as [|y a IH]; intros; [reflexivity|]. change (last (x :: y :: a) d) with (last (y :: a) d). rewrite (IH y d), (IH y x). reflexivity. Qed.
Lemma back_cons : forall l p r b, back (l :: p :: r) b =
  match (match b with O => Some 0%nat | S k => option_map snd (nth_error l k) end) with None => None | Some b' => option_map (fun q => q ++ [b]) (back (p :: r) b') end.
Proof. reflexivity. Qed.
(** log of path_prob *)
Section PLP.
Context {T : Type}.
Variables (la : nat -> nat -> R) (lx : nat -> T -> R).
Fixpoint plp (prev : nat) (a : list nat) (t : list T) : R :=
  match a, t with i :: a', w :: t' => la prev i + lx i w + plp i a' t' | _, _ => 0 end.
Lemma plp_exp : forall a t prev, exp (plp prev a t) = path_prob (fun p i => exp (la p i)) (fun i w => exp (lx i w)) prev a t.
Proof. induction a as [|i a IH]; intros [|w t] prev; cbn [plp path_prob]; try apply exp_0. rewrite !exp_plus, IH. reflexivity. Qed.
Lemma plp_snoc : forall a t i w prev, length a = length t -> plp prev (a ++ [i]) (t ++ [w]) = plp prev a t + la (last a prev) i + lx i w.
Proof.
  induction a as [|x a IH]; intros [|u t] i w prev L; try discriminate; cbn [app plp].
  - cbn. lra.
  - cbn in L. rewrite IH by lia. rewrite last_cons. lra.
Qed.
(** Viterbi without the cache *)
Fixpoint pv_inner (prev : col) (it i : nat) (x best : R) (pred : nat) : R * nat :=
  match prev with
  | [] => (best, pred)
  | v :: r => let lp := fst v + la it i + x in if Rlt_dec best lp then pv_inner r (S it) i x lp it else pv_inner r (S it) i x best pred
  end.
Definition pv_cell (prev : option col) (x : R) (i : nat) : R * nat :=
  match prev with None => (la 0 i + x, 0%nat) | Some p => pv_inner p 1 i x SMALL_LG_NUM 0 end.
Definition pv_col (N : nat) (prev : option col) (w : T) : col := map (fun i => pv_cell prev (lx i w) i) (seq 1 N).
Fixpoint pv_cols (N : nat) (acc : list col) (t : list T) : list col :=
  match t with [] => acc | w :: r => pv_cols N (pv_col N (match acc with [] => None | p :: _ => Some p end) w :: acc) r end.
Lemma pv_inner_spec : forall prev it i x best pred b p, pv_inner prev it i x best pred = (b, p) ->
  best <= b /\ (forall k v, nth_error prev k = Some v -> fst v + la (it + k) i + x <= b) /\
  ((b = best /\ p = pred) \/ (best < b /\ exists k v, nth_error prev k = Some v /\ p = (it + k)%nat /\ b = fst v + la (it + k) i + x)).
Proof.
  induction prev as [|v r IH]; intros it i x best pred b p H; cbn [pv_inner] in H.
  - inversion H; subst. split; [lra|]. split; [intros [|k] v E; discriminate|]. auto.
  - destruct (Rlt_dec best (fst v + la it i + x)) as [L|L]; apply IH in H; destruct H as (H1 & H2 & H3); split; try lra; split.
    + intros [|k] u E; cbn in E; [inversion E; subst; rewrite Nat.add_0_r; lra|]. replace (it + S k)%nat with (S it + k)%nat by lia. auto.
    + right. split; [lra|]. destruct H3 as [[E1 E2]|(_ & k & u & K1 & K2 & K3)].
      * exists 0%nat, v. rewrite Nat.add_0_r. split; [reflexivity|]. split; [exact E2|exact E1].
      * exists (S k), u. replace (it + S k)%nat with (S it + k)%nat by lia. auto.
    + intros [|k] u E; cbn in E; [inversion E; subst; rewrite Nat.add_0_r; lra|]. replace (it + S k)%nat with (S it + k)%nat by lia. auto.
    + destruct H3 as [H3|(H3 & k & u & K1 & K2 & K3)]; [auto|]. right. split; [auto|]. exists (S k), u. replace (it + S k)%nat with (S it + k)%nat by lia. auto.
Qed.
(** the columns computed for a non-empty prefix of the target sentence, last first *)
Inductive chain (N : nat) : list T -> list col -> Prop :=
| ch1 : forall w, chain N [w] [pv_col N None w]
| chS : forall t p acc w, chain N t (p :: acc) -> chain N (t ++ [w]) (pv_col N (Some p) w :: p :: acc).
Lemma chain_cols : forall N t t0 acc, chain N t0 acc -> chain N (t0 ++ t) (pv_cols N acc t).
Proof.
  intros N. induction t as [|w t IH]; intros t0 acc H; cbn [pv_cols]; [now rewrite app_nil_r|].
  replace (t0 ++ w :: t) with ((t0 ++ [w]) ++ t) by (rewrite <- app_assoc; reflexivity). apply IH.
  destruct acc as [|p acc]; [inversion H|]. now constructor.
Qed.
Lemma pv_cols_chain : forall N w t, chain N (w :: t) (pv_cols N [] (w :: t)).
Proof. intros. cbn [pv_cols]. change (w :: t) with ([w] ++ t). apply chain_cols. constructor. Qed.
Lemma pv_col_nth : forall N prev w k, (k < N)%nat -> nth_error (pv_col N prev w) k = Some (pv_cell prev (lx (S k) w) (S k)).
Proof.
  intros. unfold pv_col. rewrite nth_error_map, (nth_error_nth' _ 0%nat) by (rewrite seq_length; auto). rewrite seq_nth by auto. reflexivity.
Qed.
Lemma pv_col_inv : forall N prev w k v, nth_error (pv_col N prev w) k = Some v -> (k < N)%nat /\ v = pv_cell prev (lx (S k) w) (S k).
Proof.
  intros N prev w k v H. assert (K : (k < N)%nat). { pose proof (proj1 (nth_error_Some (pv_col N prev w) k)) as Q. rewrite H in Q. specialize (Q ltac:(discriminate)). unfold pv_col in Q. now rewrite map_length, seq_length in Q. }
  split; [auto|]. rewrite pv_col_nth in H by auto. congruence.
Qed.
Lemma chain_hd_len : forall N t c acc, chain N t (c :: acc) -> length c = N.
Proof. intros N t c acc H. inversion H; unfold pv_col; rewrite map_length, seq_length; reflexivity. Qed.
Lemma chain_len : forall N t acc, chain N t acc -> length acc = length t.
Proof. induction 1; [reflexivity|]. rewrite app_length. cbn in *. lia. Qed.
(** upper bound *)
Lemma chain_upper : forall N t acc, chain N t acc -> forall c acc', acc = c :: acc' ->
  forall a k, length (a ++ [S k]) = length t -> Forall (fun i => In i (seq 1 N)) (a ++ [S k]) -> (k < N)%nat ->
  exists v, nth_error c k = Some v /\ plp 0 (a ++ [S k]) t <= fst v.
Proof.
  intros N t acc H. induction H as [w|t p acc w H IH]; intros c acc' E a k L F K; inversion E; subst.
  - exists (la 0 (S k) + lx (S k) w, 0%nat). rewrite pv_col_nth by auto. split; [reflexivity|].
    rewrite app_length in L. cbn in L. destruct a; [|cbn in L; lia]. cbn. lra.
  - rewrite !app_length in L. cbn in L. assert (L' : length a = length t) by lia.
    rewrite plp_snoc by auto.
    destruct (@exists_last _ a) as (a0 & y & ->).
    { intros ->. cbn in L'. apply chain_len in H. cbn in H. lia. }
    apply Forall_app in F as [F _].
    assert (Hy : In y (seq 1 N)). { apply Forall_app in F as [_ F]. now inversion F. }
    apply in_seq in Hy. destruct y as [|y]; [lia|].
    destruct (IH p acc eq_refl a0 y) as (v & V1 & V2); [lia|exact F|lia|].
    destruct (pv_inner p 1 (S k) (lx (S k) w) SMALL_LG_NUM 0) as [b q] eqn:P.
    exists (b, q). rewrite pv_col_nth by auto. cbn [pv_cell]. rewrite P. split; [reflexivity|].
    apply pv_inner_spec in P as (_ & P & _). specialize (P y v V1). rewrite last_last. cbn [fst]. change (1 + y)%nat with (S y) in P. lra.
Qed.
Hypothesis la_neg : forall p i, la p i <= 0.
Hypothesis lx_neg : forall i w, lx i w <= 0.
(** values above the initial value are attained by the back-tracking *)
Lemma chain_attained : forall N t acc, chain N t acc -> forall c acc', acc = c :: acc' ->
  forall k v, nth_error c k = Some v -> (SMALL_LG_NUM < fst v \/ length t = 1%nat) ->
  exists a, back acc (S k) = Some (a ++ [S k]) /\ length (a ++ [S k]) = length t /\ Forall (fun i => In i (seq 1 N)) (a ++ [S k]) /\ plp 0 (a ++ [S k]) t = fst v.
Proof.
  intros N t acc H. induction H as [w|t p acc w H IH]; intros c acc' E k v V B; inversion E; subst; apply pv_col_inv in V as [K ->].
  - exists []. cbn. repeat split; [|lra]. constructor; [|constructor]. apply in_seq. lia.
  - pose proof (chain_len _ _ _ H) as CL. cbn in CL.
    destruct B as [B|B]; [|rewrite app_length in B; cbn in B; lia].
    cbn [pv_cell] in B |- *. destruct (pv_inner p 1 (S k) (lx (S k) w) SMALL_LG_NUM 0) as [b q] eqn:P. cbn [fst] in B |- *.
    pose proof P as P0. apply pv_inner_spec in P as (_ & _ & [[P _]|(_ & y & v & P1 & P2 & P3)]); [lra|].
    change (1 + y)%nat with (S y) in *.
    destruct (IH p acc eq_refl y v P1) as (a & A1 & A2 & A3 & A4).
    { left. specialize (la_neg (S y) (S k)). specialize (lx_neg (S k) w). lra. }
    exists (a ++ [S y]). split.
    { rewrite back_cons. rewrite pv_col_nth by auto. cbn [pv_cell]. rewrite P0. cbn [option_map snd]. rewrite P2, A1. reflexivity. }
    split; [rewrite !app_length in *; cbn in *; lia|]. split; [apply Forall_app; split; [auto|constructor; [apply in_seq; lia|constructor]]|].
    rewrite plp_snoc by auto. rewrite last_last, A4. lra.
Qed.
(** no value is below the initial value, beyond the first column *)
Lemma chain_small : forall N t acc, chain N t acc -> forall c acc', acc = c :: acc' -> (length t <> 1)%nat -> forall k v, nth_error c k = Some v -> SMALL_LG_NUM <= fst v.
Proof.
  intros N t acc H. destruct H as [w|t p acc w H]; intros c acc' E L k v V; inversion E; subst; apply pv_col_inv in V as [K ->]; [cbn in L; lia|].
  cbn [pv_cell]. destruct (pv_inner p 1 (S k) (lx (S k) w) SMALL_LG_NUM 0) as [b q] eqn:P. apply pv_inner_spec in P as (P & _ & _). exact P.
Qed.
Lemma chain_small_pred : forall N t acc, chain N t acc -> forall c acc', acc = c :: acc' -> (length t <> 1)%nat -> forall k v, nth_error c k = Some v -> fst v <= SMALL_LG_NUM -> snd v = 0%nat.
Proof.
  intros N t acc H. destruct H as [w|t p acc w H]; intros c acc' E L k v V B; inversion E; subst; apply pv_col_inv in V as [K ->]; [cbn in L; lia|].
  cbn [pv_cell] in *. destruct (pv_inner p 1 (S k) (lx (S k) w) SMALL_LG_NUM 0) as [b q] eqn:P. apply pv_inner_spec in P as (P & _ & [[_ Q]|[Q _]]); [exact Q|]. cbn in B. lra.
Qed.
End PLP.
Lemma best_row_spec : forall (l : col) i b, exists v r, best_row l i b = (v, r) /\ fst b <= v /\ (forall k u, nth_error l k = Some u -> fst u <= v) /\
  ((v = fst b /\ r = snd b) \/ exists k u, nth_error l k = Some u /\ v = fst u /\ r = (i + k)%nat).
Proof.
  induction l as [|x l IH]; intros i b; cbn [best_row].
  - exists (fst b), (snd b). split; [apply surjective_pairing|]. split; [lra|]. split; [intros [|k] u E; discriminate|auto].
  - destruct (Rlt_dec (fst b) (fst x)) as [L|L].
    + destruct (IH (S i) (fst x, i)) as (v & r & E & H1 & H2 & H3). exists v, r. cbn [fst snd] in *. split; [exact E|]. split; [lra|]. split.
      * intros [|k] u U; cbn in U; [inversion U; subst; lra|eauto].
      * right. destruct H3 as [[-> ->]|(k & u & U1 & U2 & U3)]; [exists 0%nat, x; rewrite Nat.add_0_r; auto|exists (S k), u; split; [exact U1|split; [exact U2|lia]]].
    + destruct (IH (S i) b) as (v & r & E & H1 & H2 & H3). exists v, r. split; [exact E|]. split; [lra|]. split.
      * intros [|k] u U; cbn in U; [inversion U; subst; lra|eauto].
      * destruct H3 as [H3|(k & u & U1 & U2 & U3)]; [auto|right; exists (S k), u; split; [exact U1|split; [exact U2|lia]]].
Qed.
