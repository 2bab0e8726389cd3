(** Specification vocabulary: finite sums and products of real numbers over lists, and all the sequences over a list of choices. *)
From Coq Require Import Reals List Lra Lia Arith.
Import ListNotations.
Open Scope R_scope.
Fixpoint sumf {A} (f : A -> R) (l : list A) : R := match l with [] => 0 | x :: r => f x + sumf f r end.
Fixpoint prodf {A} (f : A -> R) (l : list A) : R := match l with [] => 1 | x :: r => f x * prodf f r end.
(** all sequences of length m over the choices c *)
Fixpoint seqs {A} (c : list A) (m : nat) : list (list A) :=
  match m with O => [[]] | S m' => flat_map (fun x => map (cons x) (seqs c m')) c end.

Section L.
Context {A B : Type}.
Lemma sumf_app : forall (f : A -> R) l l', sumf f (l ++ l') = sumf f l + sumf f l'.
Proof. induction l; intros; cbn; [lra|rewrite IHl; lra]. Qed.
Lemma sumf_ext : forall (f g : A -> R) l, (forall x, In x l -> f x = g x) -> sumf f l = sumf g l.
Proof. induction l; cbn; intros; [reflexivity|]. rewrite H, IHl; auto. Qed.
Lemma prodf_ext : forall (f g : A -> R) l, (forall x, In x l -> f x = g x) -> prodf f l = prodf g l.
Proof. induction l; cbn; intros; [reflexivity|]. rewrite H, IHl; auto. Qed.
Lemma sumf_map : forall (f : B -> R) (g : A -> B) l, sumf f (map g l) = sumf (fun x => f (g x)) l.
Proof. induction l; cbn; intros; [reflexivity|]. rewrite IHl; auto. Qed.
Lemma prodf_map : forall (f : B -> R) (g : A -> B) l, prodf f (map g l) = prodf (fun x => f (g x)) l.
Proof. induction l; cbn; intros; [reflexivity|]. rewrite IHl; auto. Qed.
Lemma prodf_app : forall (f : A -> R) l l', prodf f (l ++ l') = prodf f l * prodf f l'.
Proof. induction l; intros; cbn; [lra|rewrite IHl; lra]. Qed.
Lemma sumf_scal : forall c (f : A -> R) l, sumf (fun x => c * f x) l = c * sumf f l.
Proof. induction l; cbn; intros; [lra|]. rewrite IHl; lra. Qed.
Lemma sumf_scal_r : forall c (f : A -> R) l, sumf (fun x => f x * c) l = sumf f l * c.
Proof. induction l; cbn; intros; [lra|]. rewrite IHl; lra. Qed.
Lemma sumf_plus : forall (f g : A -> R) l, sumf (fun x => f x + g x) l = sumf f l + sumf g l.
Proof. induction l; cbn; intros; [lra|]. rewrite IHl; lra. Qed.
Lemma sumf_minus : forall (f g : A -> R) l, sumf (fun x => f x - g x) l = sumf f l - sumf g l.
Proof. induction l; cbn; intros; [lra|]. rewrite IHl; lra. Qed.
Lemma sumf_0 : forall (l : list A), sumf (fun _ => 0) l = 0.
Proof. induction l; cbn; lra. Qed.
Lemma sumf_const : forall c (l : list A), sumf (fun _ => c) l = INR (length l) * c.
Proof. induction l as [|a l IH]; [cbn; lra|]. cbn [sumf length]. rewrite S_INR, IH. lra. Qed.
Lemma sumf_nonneg : forall (f : A -> R) l, (forall x, In x l -> 0 <= f x) -> 0 <= sumf f l.
Proof. induction l as [|a l IH]; cbn; intros; [lra|]. pose proof (H a (or_introl eq_refl)). assert (0 <= sumf f l) by (apply IH; auto). lra. Qed.
Lemma sumf_pos : forall (f : A -> R) l x, (forall x, In x l -> 0 <= f x) -> In x l -> 0 < f x -> 0 < sumf f l.
Proof.
  induction l as [|a l IH]; cbn; intros x H I P; [tauto|]. pose proof (H a (or_introl eq_refl)).
  assert (0 <= sumf f l) by (apply sumf_nonneg; auto). destruct I as [->|I]; [lra|]. assert (0 < sumf f l) by (eapply IH; eauto). lra.
Qed.
Lemma sumf_le : forall (f g : A -> R) l, (forall x, In x l -> f x <= g x) -> sumf f l <= sumf g l.
Proof. induction l; cbn; intros; [lra|]. pose proof (H a (or_introl eq_refl)). assert (sumf f l <= sumf g l) by auto. lra. Qed.
Lemma sumf_ge_one : forall (f : A -> R) l x, (forall x, In x l -> 0 <= f x) -> In x l -> f x <= sumf f l.
Proof.
  induction l as [|a l IH]; cbn; intros x H I; [tauto|]. pose proof (H a (or_introl eq_refl)).
  assert (0 <= sumf f l) by (apply sumf_nonneg; auto). destruct I as [->|I]; [lra|]. assert (f x <= sumf f l) by (eapply IH; eauto). lra.
Qed.
Lemma sumf_zero : forall (f : A -> R) l, (forall x, In x l -> 0 <= f x) -> sumf f l = 0 -> forall x, In x l -> f x = 0.
Proof. intros f l H E x I. pose proof (sumf_ge_one f l x H I). pose proof (H x I). lra. Qed.
Lemma prodf_nonneg : forall (f : A -> R) l, (forall x, In x l -> 0 <= f x) -> 0 <= prodf f l.
Proof. induction l; cbn; intros; [lra|]. apply Rmult_le_pos; auto. Qed.
Lemma prodf_pos : forall (f : A -> R) l, (forall x, In x l -> 0 < f x) -> 0 < prodf f l.
Proof. induction l; cbn; intros; [lra|]. apply Rmult_lt_0_compat; auto. Qed.
Lemma prodf_zero : forall (f : A -> R) l x, In x l -> f x = 0 -> prodf f l = 0.
Proof. induction l; cbn; intros x I E; [tauto|]. destruct I as [->|I]; [rewrite E; lra|]. erewrite IHl; eauto. lra. Qed.
Lemma prodf_const : forall c (l : list A), prodf (fun _ => c) l = c ^ length l.
Proof. induction l as [|a l IH]; cbn; [reflexivity|]. now rewrite IH. Qed.
Lemma prodf_mult : forall (f g : A -> R) l, prodf (fun x => f x * g x) l = prodf f l * prodf g l.
Proof. induction l; cbn; intros; [lra|]. rewrite IHl; lra. Qed.
Lemma ln_prodf : forall (f : A -> R) l, (forall x, In x l -> 0 < f x) -> ln (prodf f l) = sumf (fun x => ln (f x)) l.
Proof.
  induction l as [|a l IH]; cbn; intros H; [apply ln_1|]. rewrite ln_mult, IH; auto. apply prodf_pos. auto.
Qed.
Lemma exp_sumf : forall (f : A -> R) l, exp (sumf f l) = prodf (fun x => exp (f x)) l.
Proof. induction l as [|a l IH]; cbn; [apply exp_0|]. rewrite exp_plus, IH. reflexivity. Qed.
Lemma prodf_inv : forall (f : A -> R) l, (forall x, In x l -> f x <> 0) -> prodf (fun x => / f x) l = / prodf f l.
Proof. induction l; cbn; intros; [lra|]. rewrite IHl by auto. rewrite Rinv_mult. reflexivity. Qed.
Lemma prodf_le : forall (f g : A -> R) l, (forall x, In x l -> 0 <= f x <= g x) -> prodf f l <= prodf g l.
Proof.
  induction l as [|a l IH]; cbn; intros H; [lra|]. apply Rmult_le_compat; [apply H; auto|apply prodf_nonneg; intros; apply H; auto|apply H; auto|apply IH; auto].
Qed.
End L.
Lemma sumf_flat_map : forall {A B} (f : B -> R) (g : A -> list B) l, sumf f (flat_map g l) = sumf (fun x => sumf f (g x)) l.
Proof. induction l; cbn; intros; [reflexivity|]. rewrite sumf_app, IHl; auto. Qed.
Lemma sumf_swap : forall {A B} (f : A -> B -> R) la lb, sumf (fun a => sumf (fun b => f a b) lb) la = sumf (fun b => sumf (fun a => f a b) la) lb.
Proof.
  induction la as [|a la IH]; intros lb; cbn; [now rewrite sumf_0|]. rewrite IH, sumf_plus. reflexivity.
Qed.
Lemma seqs_in : forall {A} (c : list A) m a, In a (seqs c m) <-> length a = m /\ Forall (fun x => In x c) a.
Proof.
  intros A c. induction m as [|m IH]; intros a; cbn.
  - split; [intros [<-|[]]; split; [reflexivity|constructor]|]. intros [H _]. destruct a; [auto|discriminate].
  - rewrite in_flat_map. split.
    + intros (x & Hx & Hi). rewrite in_map_iff in Hi. destruct Hi as (b & <- & Hb). apply IH in Hb as [L F]. split; [cbn; lia|constructor; auto].
    + intros [L F]. destruct a as [|x a]; [discriminate|]. inversion F; subst. exists x. split; [auto|]. apply in_map, IH. split; [cbn in L; lia|auto].
Qed.
Lemma seqs_nodup : forall {A} (c : list A) m, NoDup c -> NoDup (seqs c m).
Proof.
  intros A c m H. induction m as [|m IH]; cbn; [constructor; [tauto|constructor]|].
  assert (G : forall l, NoDup l -> NoDup (flat_map (fun x => map (cons x) (seqs c m)) l)); [|auto].
  induction l as [|x l IHl]; cbn; intros Hl; [constructor|]. inversion Hl; subst.
  assert (D1 : NoDup (map (cons x) (seqs c m))).
  { clear -IH. induction IH; cbn; constructor; auto. rewrite in_map_iff. intros (y & E & Hy). inversion E; subst; auto. }
  revert D1. generalize (IHl H3). intros D2 D1. clear -D1 D2 H2.
  assert (Hd : forall a, In a (map (cons x) (seqs c m)) -> ~ In a (flat_map (fun x => map (cons x) (seqs c m)) l)).
  { intros a I1 I2. rewrite in_map_iff in I1. destruct I1 as (b & <- & _). rewrite in_flat_map in I2. destruct I2 as (y & Hy & I2).
    rewrite in_map_iff in I2. destruct I2 as (b' & E & _). inversion E; subst. auto. }
  revert D1 Hd. generalize (map (cons x) (seqs c m)) as u. intros u. induction u as [|h u IHu]; cbn; intros D1 Hd; [auto|].
  inversion D1; subst. constructor.
  - rewrite in_app_iff. intros [I|I]; [auto|]. exact (Hd h (or_introl eq_refl) I).
  - apply IHu; [auto|]. intros a Ha. apply Hd. auto.
Qed.
(** exchange of sum and product: the sum over all sequences of the products is the product of the sums *)
Lemma sum_prod : forall {A T} (f : A -> T -> R) (c : list A) (ts : list T),
  sumf (fun a => prodf (fun p => f (fst p) (snd p)) (combine a ts)) (seqs c (length ts)) = prodf (fun t => sumf (fun x => f x t) c) ts.
Proof.
  intros A T f c. induction ts as [|t ts IH]; cbn [seqs length prodf]; [cbn; lra|].
  rewrite sumf_flat_map, <- IH, <- sumf_scal_r. apply sumf_ext. intros x _. rewrite sumf_map. cbn [combine prodf fst snd]. rewrite sumf_scal. reflexivity.
Qed.
