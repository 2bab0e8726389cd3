From Coq Require Import Reals NArith Arith List Bool Lra Lia.
From Verif Require Import RSums MathModel MathProofs LogNum HmmSpec HmmModel HmmVitProofs.
Import ListNotations.
Open Scope R_scope.
Lemma seqs_snoc : forall {A} (c : list A) m (g : list A -> R), sumf g (seqs c (S m)) = sumf (fun a => sumf (fun x => g (a ++ [x])) c) (seqs c m).
Proof.
  intros A c. induction m as [|m IH]; intros g.
  - cbn [seqs sumf app]. rewrite sumf_flat_map. cbn [map sumf]. rewrite Rplus_0_r. apply sumf_ext. intros; lra.
  - change (seqs c (S (S m))) with (flat_map (fun x => map (cons x) (seqs c (S m))) c). rewrite sumf_flat_map.
    change (seqs c (S m)) with (flat_map (fun x => map (cons x) (seqs c m)) c) at 2. rewrite sumf_flat_map. apply sumf_ext. intros x _.
    rewrite !sumf_map, IH. reflexivity.
Qed.
Lemma seqs_app : forall {A} (c : list A) j r (g : list A -> R), sumf g (seqs c (j + r)) = sumf (fun a => sumf (fun b => g (a ++ b)) (seqs c r)) (seqs c j).
Proof.
  intros A c. induction j as [|j IH]; intros r g; cbn [Nat.add]; [cbn [seqs sumf app]; rewrite Rplus_0_r; apply sumf_ext; reflexivity|].
  cbn [seqs]. rewrite !sumf_flat_map. apply sumf_ext. intros x _. rewrite !sumf_map, IH. reflexivity.
Qed.
Lemma sumf_filter : forall {A} (f : A -> R) p l, sumf f (filter p l) = sumf (fun x => f x * (if p x then 1 else 0)) l.
Proof. induction l as [|x l IH]; cbn; [reflexivity|]. destruct (p x); cbn; rewrite IH; lra. Qed.
Lemma fold_sumlog : forall r v, exp (fold_left lns_sumlog r v) = exp v + sumf exp r.
Proof.
  induction r as [|x r IH]; intros v; cbn; [lra|]. rewrite IH, sumlog_ok. rewrite exp_ln; [lra|]. pose proof (exp_pos v). pose proof (exp_pos x). lra.
Qed.
Lemma exp_sumlog : forall x y, exp (lns_sumlog x y) = exp x + exp y.
Proof. intros. rewrite sumlog_ok, exp_ln; [reflexivity|]. pose proof (exp_pos x). pose proof (exp_pos y). lra. Qed.
Lemma sum_inner_exp : forall (la : nat -> R) (g : nat -> R) x n it acc,
  exp (sum_inner la (map g (seq it n)) it x acc) = exp acc + sumf (fun k => exp (g k) * exp (la k) * exp x) (seq it n).
Proof.
  intros la g x. induction n as [|n IH]; intros it acc; cbn [seq map sum_inner sumf]; [lra|]. rewrite IH, exp_sumlog, !exp_plus. lra.
Qed.
Section F.
Context {T : Type}.
Variables (tr : nat -> nat -> R) (em : nat -> T -> R).
Notation P := (path_prob tr em).
Lemma path_app : forall a t b u prev, length a = length t -> P prev (a ++ b) (t ++ u) = P prev a t * P (last a prev) b u.
Proof.
  induction a as [|x a IH]; intros [|w t] b u prev L; try discriminate; cbn [app path_prob]; [cbn; lra|].
  cbn in L. rewrite IH, last_cons by lia. lra.
Qed.
Definition astep (c : list nat) (A : nat -> R) (w : T) (i : nat) : R := sumf (fun k => A k * tr k i * em i w) c.
(** A is the forward column of the prefix t *)
Definition is_alpha (c : list nat) (t : list T) (A : nat -> R) : Prop :=
  forall f, sumf (fun a => P 0 a t * f (last a 0%nat)) (seqs c (length t)) = sumf (fun i => A i * f i) c.
Lemma alpha_1 : forall c w, is_alpha c [w] (fun i => tr 0%nat i * em i w).
Proof.
  intros c w f. cbn [length seqs]. rewrite sumf_flat_map. apply sumf_ext. intros x _. cbn. lra.
Qed.
Lemma alpha_S : forall c t A w, is_alpha c t A -> is_alpha c (t ++ [w]) (astep c A w).
Proof.
  intros c t A w H f. rewrite app_length. cbn [length]. rewrite Nat.add_1_r, seqs_snoc.
  transitivity (sumf (fun i => sumf (fun a => P 0 a t * tr (last a 0%nat) i * (em i w * f i)) (seqs c (length t))) c).
  - rewrite sumf_swap. apply sumf_ext. intros x _. apply sumf_ext. intros a Ha. apply seqs_in in Ha as [L _].
    rewrite path_app by auto. rewrite last_last. cbn [path_prob]. lra.
  - apply sumf_ext. intros i _. rewrite sumf_scal_r. specialize (H (fun k => tr k i)). rewrite H. unfold astep.
    rewrite <- !sumf_scal_r. apply sumf_ext. intros; lra.
Qed.
(** backward: probability of the words u after the state i *)
Definition beta_of (c : list nat) (u : list T) (i : nat) : R := sumf (fun b => P i b u) (seqs c (length u)).
Lemma beta_nil : forall c i, beta_of c [] i = 1.
Proof. intros. unfold beta_of. cbn. lra. Qed.
Lemma beta_cons : forall c w u i, beta_of c (w :: u) i = sumf (fun k => beta_of c u k * tr i k * em k w) c.
Proof.
  intros. unfold beta_of. cbn [length seqs]. rewrite sumf_flat_map. apply sumf_ext. intros x _. rewrite sumf_map. rewrite <- !sumf_scal_r. apply sumf_ext. intros; cbn [path_prob]; lra.
Qed.
Lemma joint_ab : forall c t A u f, is_alpha c t A -> t <> [] ->
  sumf (fun a => P 0 a (t ++ u) * f (nth (length t - 1) a 0%nat)) (seqs c (length (t ++ u))) = sumf (fun i => A i * beta_of c u i * f i) c.
Proof.
  intros c t A u f H NE. rewrite app_length, seqs_app.
  transitivity (sumf (fun a => P 0 a t * (beta_of c u (last a 0%nat) * f (last a 0%nat))) (seqs c (length t))).
  - apply sumf_ext. intros a Ha. apply seqs_in in Ha as [L _]. unfold beta_of. rewrite <- Rmult_assoc, <- sumf_scal, <- sumf_scal_r. apply sumf_ext. intros b _.
    rewrite path_app by auto. rewrite app_nth1 by (destruct t; [congruence|cbn in *; lia]).
    replace (nth (length t - 1) a 0%nat) with (last a 0%nat); [lra|].
    destruct (@exists_last _ a) as (a0 & y & ->); [intros ->; destruct t; [congruence|discriminate]|]. rewrite last_last, app_nth2; rewrite app_length in L; cbn in L; [|lia].
    replace (length t - 1 - length a0)%nat with 0%nat by lia. reflexivity.
  - rewrite (H (fun i => beta_of c u i * f i)). apply sumf_ext. intros; lra.
Qed.
End F.
Section I.
Variable M : hmm.
Variables (slen : nat) (ns : list N).
Let N_ := length ns.
Let tr p i := exp (logaProb M p slen i).
Let em i w := exp (logpts M (nth (i - 1) ns NULL_WORD) w).
Hypothesis NE : (0 < length ns)%nat.
Lemma fwd_next_exp : forall g w, fwd_next M slen ns (map g (seq 1 (length ns))) w = map (fun i => fwd_cell M slen (map g (seq 1 (length ns))) i (logpts M (nth (i - 1) ns NULL_WORD) w)) (seq 1 (length ns)).
Proof. reflexivity. Qed.
Lemma fwd_cell_exp : forall g i w, exp (fwd_cell M slen (map g (seq 1 (length ns))) i (logpts M (nth (i - 1) ns NULL_WORD) w))
  = astep tr em (seq 1 (length ns)) (fun k => exp (g k)) w i.
Proof.
  intros g i w. unfold astep. destruct (length ns) as [|n]; [lia|]. cbn [seq map fwd_cell sumf]. rewrite (sum_inner_exp (fun it => logaProb M it slen i)).
  rewrite !exp_plus. unfold tr, em. reflexivity.
Qed.
(** every column of the forward matrix *)
Lemma fwd_cols_spec : forall t t0 g, is_alpha tr em (seq 1 N_) t0 (fun i => exp (g i)) -> 
  forall j, (j < length t)%nat -> exists g', nth_error (fwd_cols M slen ns (Some (map g (seq 1 N_))) t) j = Some (map g' (seq 1 N_)) /\ is_alpha tr em (seq 1 N_) (t0 ++ firstn (S j) t) (fun i => exp (g' i)).
Proof.
  induction t as [|w t IH]; intros t0 g H j J; [cbn in J; lia|]. cbn [fwd_cols].
  set (g1 := fun i => fwd_cell M slen (map g (seq 1 N_)) i (logpts M (nth (i - 1) ns NULL_WORD) w)).
  assert (H1 : is_alpha tr em (seq 1 N_) (t0 ++ [w]) (fun i => exp (g1 i))).
  { intros f. rewrite (alpha_S tr em _ _ _ w H f). apply sumf_ext. intros i _. unfold g1. unfold N_. rewrite fwd_cell_exp. reflexivity. }
  change (fwd_next M slen ns (map g (seq 1 N_)) w) with (map g1 (seq 1 N_)).
  destruct j as [|j]; [exists g1; split; [reflexivity|exact H1]|]. cbn in J.
  destruct (IH (t0 ++ [w]) g1 H1 j ltac:(lia)) as (g' & E & K). exists g'. split; [exact E|].
  rewrite <- app_assoc in K. exact K.
Qed.
Lemma fwd_spec : forall t j, (j < length t)%nat -> exists g, nth_error (fwd_cols M slen ns None t) j = Some (map g (seq 1 N_)) /\ is_alpha tr em (seq 1 N_) (firstn (S j) t) (fun i => exp (g i)).
Proof.
  intros [|w t] j J; [cbn in J; lia|]. cbn [fwd_cols].
  set (g1 := fun i => logaProb M 0 slen i + logpts M (nth (i - 1) ns NULL_WORD) w).
  assert (H1 : is_alpha tr em (seq 1 N_) [w] (fun i => exp (g1 i))).
  { intros f. rewrite (alpha_1 tr em _ w f). apply sumf_ext. intros i _. unfold g1. rewrite exp_plus. reflexivity. }
  change (fwd_first M slen ns w) with (map g1 (seq 1 N_)).
  destruct j as [|j]; [exists g1; split; [reflexivity|exact H1]|]. cbn in J.
  destruct (fwd_cols_spec t [w] g1 H1 j ltac:(lia)) as (g' & E & K). exists g'. split; [exact E|exact K].
Qed.
Lemma fwd_cols_len : forall t p, length (fwd_cols M slen ns p t) = length t.
Proof. induction t; intros p; cbn; auto. Qed.
Lemma last_nth : forall {A} (l : list A) d, last l d = nth (length l - 1) l d.
Proof. induction l as [|x l IH]; intros d; [reflexivity|]. destruct l; [reflexivity|]. change (last (x :: a :: l) d) with (last (a :: l) d). rewrite IH. cbn [length nth Nat.sub]. rewrite Nat.sub_0_r. reflexivity. Qed.
Lemma forward_total : forall t, t <> [] -> slen = getSrcLen ns -> exp (forwardAlgorithm M ns t) = sumf (fun a => path_prob tr em 0 a t) (seqs (seq 1 N_) (length t)).
Proof.
  intros t T0 ES. unfold forwardAlgorithm. rewrite <- ES. rewrite last_nth, fwd_cols_len.
  assert (J : (length t - 1 < length t)%nat) by (destruct t; [congruence|cbn; lia]).
  destruct (fwd_spec t _ J) as (g & E & H). rewrite (nth_error_nth _ _ [] E).
  replace (S (length t - 1)) with (length t) in H by lia. rewrite firstn_all in H. specialize (H (fun _ => 1)).
  rewrite (sumf_ext _ (fun a => path_prob tr em 0 a t)) in H by (intros; lra). rewrite H.
  unfold lgProbGivenForward. unfold N_. destruct (length ns) as [|n] eqn:L; [lia|]. cbn [seq map]. rewrite fold_sumlog, sumf_map. cbn [sumf]. rewrite Rmult_1_r. f_equal.
  apply sumf_ext. intros; lra.
Qed.
Lemma beta_cell_exp : forall g i w, exp (beta_cell M slen ns (map g (seq 1 (length ns))) i w) = sumf (fun k => exp (g k) * tr i k * em k w) (seq 1 (length ns)).
Proof.
  intros g i w. unfold beta_cell.
  assert (Q : forall (f : nat -> R) l v, exp (fold_left (fun acc it => lns_sumlog (f it) acc) l v) = exp v + sumf (fun it => exp (f it)) l).
  { intros f l. induction l as [|x l IH]; intros v; cbn; [lra|]. rewrite IH, exp_sumlog. lra. }
  assert (G : forall k, In k (seq 1 (length ns)) -> nth (k - 1) (map g (seq 1 (length ns))) 0 = g k).
  { intros k K. apply in_seq in K. rewrite nth_indep with (d' := g 0%nat) by (rewrite map_length, seq_length; lia). rewrite map_nth, seq_nth by lia. f_equal. lia. }
  destruct (length ns) as [|n] eqn:L; [lia|].
  destruct (map g (seq 1 (S n))) eqn:E; [discriminate|]. rewrite <- E in *. rewrite Q. rewrite map_length, seq_length.
  replace (S n - 1)%nat with n by lia. change (seq 1 (S n)) with (1%nat :: seq 2 n) at 3. cbn [sumf]. f_equal.
  - rewrite !exp_plus. rewrite G by (left; reflexivity). unfold tr, em. reflexivity.
  - apply sumf_ext. intros k K. rewrite !exp_plus, G; [reflexivity|]. right. exact K.
Qed.
Lemma beta_spec : forall t j, (j < length t)%nat -> exists g, nth_error (beta_cols M slen ns t) j = Some (map g (seq 1 N_)) /\ forall i, In i (seq 1 N_) -> exp (g i) = beta_of tr em (seq 1 N_) (skipn (S j) t) i.
Proof.
  induction t as [|w0 t IH]; intros j J; [cbn in J; lia|]. destruct t as [|w t].
  - cbn in J. assert (j = 0)%nat by lia. subst. exists (fun _ => ln 1). split; [reflexivity|]. intros. cbn [skipn]. rewrite beta_nil, ln_1, exp_0. reflexivity.
  - destruct j as [|j].
    + destruct (IH 0%nat ltac:(cbn; lia)) as (g & E & K).
      exists (fun i => beta_cell M slen ns (map g (seq 1 N_)) i w). split.
      * change (beta_cols M slen ns (w0 :: w :: t)) with (map (fun i => beta_cell M slen ns (hd [] (beta_cols M slen ns (w :: t))) i w) (seq 1 (length ns)) :: beta_cols M slen ns (w :: t)).
        cbn [nth_error]. replace (hd [] (beta_cols M slen ns (w :: t))) with (map g (seq 1 N_)); [reflexivity|]. destruct (beta_cols M slen ns (w :: t)); cbn in E; [discriminate|]. cbn. congruence.
      * intros i I. unfold N_. rewrite beta_cell_exp. change (skipn 1 (w0 :: w :: t)) with (w :: t). rewrite beta_cons. apply sumf_ext. intros k Kk. rewrite (K k Kk). reflexivity.
    + destruct (IH j ltac:(cbn in J |- *; lia)) as (g & E & K). exists g. split; [exact E|exact K].
Qed.
End I.
