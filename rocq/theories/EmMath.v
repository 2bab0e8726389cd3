(** The mathematics of an EM iteration, independent of the program: Jensen's inequality for ln and the M-step (Gibbs) inequality. *)
From Coq Require Import Reals List Lra Lia.
From Verif Require Import RSums.
Import ListNotations.
Open Scope R_scope.
Lemma ln_le_pred : forall x, 0 < x -> ln x <= x - 1.
Proof. intros x H. pose proof (exp_ineq1_le (ln x)). rewrite exp_ln in H0 by exact H. lra. Qed.
Lemma jensen : forall {A} (l : list A) (th th' : A -> R), l <> [] -> (forall x, In x l -> 0 < th x /\ 0 < th' x) ->
  sumf (fun x => th x / sumf th l * (ln (th' x) - ln (th x))) l <= ln (sumf th' l) - ln (sumf th l).
Proof.
  intros A l th th' Hl H. set (Z := sumf th l). set (Z' := sumf th' l).
  assert (PZ : 0 < Z). { destruct l as [|x l']; [congruence|]. apply (sumf_pos th _ x); [intros; left; apply H; auto|left; auto|apply H; left; auto]. }
  assert (PZ' : 0 < Z'). { destruct l as [|x l']; [congruence|]. apply (sumf_pos th' _ x); [intros; left; apply H; auto|left; auto|apply H; left; auto]. }
  apply Rle_trans with (sumf (fun x => th x / Z * (ln Z' - ln Z) + (th' x / Z' - th x / Z)) l).
  - apply sumf_le. intros x Hx. destruct (H x Hx) as [P P'].
    pose proof (ln_le_pred (th' x / th x * (Z / Z'))) as Q.
    assert (P1 : 0 < th' x / th x) by (apply Rdiv_lt_0_compat; assumption). assert (P2 : 0 < Z / Z') by (apply Rdiv_lt_0_compat; assumption).
    specialize (Q ltac:(apply Rmult_lt_0_compat; assumption)). rewrite ln_mult in Q by assumption. unfold Rdiv in Q. rewrite !ln_mult in Q by (try apply Rinv_0_lt_compat; assumption). rewrite !ln_Rinv in Q by assumption.
    assert (P3 : 0 < th x / Z) by (apply Rdiv_lt_0_compat; assumption).
    apply Rmult_le_compat_l with (r := th x / Z) in Q; [|lra].
    assert (E : th x / Z * (th' x * / th x * (Z * / Z') - 1) = th' x / Z' - th x / Z) by (field; repeat split; lra).
    rewrite E in Q. set (u := th x / Z) in *. lra.
  - rewrite sumf_plus, sumf_scal_r, sumf_minus. assert (E1 : sumf (fun x => th x / Z) l = 1) by (unfold Rdiv; rewrite sumf_scal_r; fold Z; field; lra). assert (E2 : sumf (fun x => th' x / Z') l = 1) by (unfold Rdiv; rewrite sumf_scal_r; fold Z'; field; lra).
    rewrite E1, E2. lra.
Qed.
Section MSTEP.
Context {A K1 K2 : Type}.
Variable d1 : forall a b : K1, {a = b} + {a <> b}.
Variable d2 : forall a b : K2, {a = b} + {a <> b}.
Variable atoms : list A.
Variable k1 : A -> K1.
Variable k2 : A -> K2.
Variable g : A -> R.
Hypothesis gpos : forall a, In a atoms -> 0 < g a.
Definition cnt (s : K1) (t : K2) : R := sumf (fun a => if d1 (k1 a) s then if d2 (k2 a) t then g a else 0 else 0) atoms.
Variable S1 : list K1.
Variable S2 : list K2.
Hypothesis ND1 : NoDup S1.
Hypothesis ND2 : NoDup S2.
Hypothesis in1 : forall a, In a atoms -> In (k1 a) S1.
Hypothesis in2 : forall a, In a atoms -> In (k2 a) S2.
Lemma point : forall {B} (d : forall a b : B, {a = b} + {a <> b}) (l : list B) x (v : B -> R), NoDup l -> In x l -> sumf (fun y => if d x y then v y else 0) l = v x.
Proof.
  intros B d l x v ND. induction ND as [|y l Hy ND IH]; intros I; [destruct I|]. cbn [sumf]. destruct (d x y) as [->|Nx].
  - rewrite (sumf_ext _ (fun _ => 0)); [rewrite sumf_0; lra|]. intros z Hz. destruct (d y z); [subst; contradiction|reflexivity].
  - destruct I as [->|I]; [congruence|]. rewrite IH by exact I. lra.
Qed.
Lemma group : forall f : K1 -> K2 -> R, sumf (fun a => g a * f (k1 a) (k2 a)) atoms = sumf (fun s => sumf (fun t => cnt s t * f s t) S2) S1.
Proof.
  intros f. unfold cnt. assert (E : forall s t, sumf (fun a => if d1 (k1 a) s then if d2 (k2 a) t then g a else 0 else 0) atoms * f s t = sumf (fun a => if d1 (k1 a) s then if d2 (k2 a) t then g a * f s t else 0 else 0) atoms).
  { intros s t. rewrite <- sumf_scal_r. apply sumf_ext. intros a _. destruct (d1 (k1 a) s), (d2 (k2 a) t); lra. }
  transitivity (sumf (fun s => sumf (fun t => sumf (fun a => if d1 (k1 a) s then if d2 (k2 a) t then g a * f s t else 0 else 0) atoms) S2) S1).
  2:{ apply sumf_ext. intros s _. apply sumf_ext. intros t _. symmetry. apply E. }
  rewrite (sumf_ext (fun s => sumf (fun t => sumf _ atoms) S2) (fun s => sumf (fun a => sumf (fun t => if d1 (k1 a) s then if d2 (k2 a) t then g a * f s t else 0 else 0) S2) atoms)).
  2:{ intros s _. apply (sumf_swap (fun t a => if d1 (k1 a) s then if d2 (k2 a) t then g a * f s t else 0 else 0)). }
  rewrite (sumf_swap (fun s a => sumf (fun t => if d1 (k1 a) s then if d2 (k2 a) t then g a * f s t else 0 else 0) S2)).
  apply sumf_ext. intros a Ha. symmetry.
  rewrite (sumf_ext _ (fun s => if d1 (k1 a) s then g a * f s (k2 a) else 0)).
  - apply (point d1 S1 (k1 a) (fun s => g a * f s (k2 a))); auto.
  - intros s _. destruct (d1 (k1 a) s); [|apply sumf_0]. apply (point d2 S2 (k2 a) (fun t => g a * f s t)); auto.
Qed.
Lemma cnt_nonneg : forall s t, 0 <= cnt s t.
Proof. intros. apply sumf_nonneg. intros a Ha. destruct (d1 (k1 a) s), (d2 (k2 a) t); try lra. left. auto. Qed.
Lemma cnt_pos : forall a, In a atoms -> 0 < cnt (k1 a) (k2 a).
Proof.
  intros a Ha. apply (sumf_pos _ _ a); [|exact Ha|].
  - intros b Hb. destruct (d1 (k1 b) (k1 a)), (d2 (k2 b) (k2 a)); try lra. left; auto.
  - destruct (d1 (k1 a) (k1 a)), (d2 (k2 a) (k2 a)); try congruence. auto.
Qed.
(** relative frequencies maximise the expected log likelihood *)
Lemma mstep : forall th : K1 -> K2 -> R, (forall a, In a atoms -> 0 < th (k1 a) (k2 a)) -> (forall s t, 0 <= th s t) -> (forall s, sumf (th s) S2 <= 1) ->
  0 <= sumf (fun a => g a * (ln (cnt (k1 a) (k2 a) / sumf (cnt (k1 a)) S2) - ln (th (k1 a) (k2 a)))) atoms.
Proof.
  intros th Pth Nth Sth. set (C := fun s => sumf (cnt s) S2).
  assert (PC : forall a, In a atoms -> 0 < C (k1 a)). { intros a Ha. apply (sumf_pos _ _ (k2 a)); [intros; apply cnt_nonneg|auto|apply cnt_pos; exact Ha]. }
  apply Rle_trans with (sumf (fun a => g a * 1 - g a * (th (k1 a) (k2 a) / (cnt (k1 a) (k2 a) / C (k1 a)))) atoms).
  - rewrite sumf_minus. rewrite (group (fun _ _ => 1)), (group (fun s t => th s t / (cnt s t / C s))). rewrite <- sumf_minus. apply sumf_nonneg. intros s _.
    assert (X : sumf (fun t => cnt s t * (th s t / (cnt s t / C s))) S2 <= sumf (fun t => th s t * C s) S2).
    { apply sumf_le. intros t _. destruct (Req_EM_T (cnt s t) 0) as [->|Nz].
      - rewrite Rmult_0_l. apply Rmult_le_pos; [apply Nth|apply sumf_nonneg; intros; apply cnt_nonneg].
      - destruct (Req_EM_T (C s) 0) as [Z|Z]; [|right; field; auto]. unfold Rdiv. rewrite Z, Rinv_0, Rmult_0_r, Rinv_0. lra. }
    rewrite sumf_scal_r in X. rewrite (sumf_scal_r 1 (cnt s)). fold (C s). assert (0 <= C s) by (apply sumf_nonneg; intros; apply cnt_nonneg). specialize (Sth s). nra.
  - apply sumf_le. intros a Ha. pose proof (gpos a Ha). assert (P1 : 0 < cnt (k1 a) (k2 a) / C (k1 a)) by (apply Rdiv_lt_0_compat; [apply cnt_pos; exact Ha|apply PC; exact Ha]).
    pose proof (Pth a Ha) as P2. pose proof (ln_le_pred (th (k1 a) (k2 a) / (cnt (k1 a) (k2 a) / C (k1 a))) ltac:(apply Rdiv_lt_0_compat; assumption)) as Q.
    unfold Rdiv at 1 in Q. rewrite ln_mult, ln_Rinv in Q by (try apply Rinv_0_lt_compat; assumption). fold (C (k1 a)). nra.
Qed.
End MSTEP.
