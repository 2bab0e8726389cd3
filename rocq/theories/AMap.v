(** Finite maps as association lists with unique keys: stand-in for std::map / hash_map / Judy tables whose iteration order
    is not relied upon.  [aset] is operator[]= , [aget] is find, [length] is size(). *)
From Coq Require Import Arith List Bool Lia Permutation.
Import ListNotations.

Section AMAP.
Context {K V : Type}.
Variable eqd : forall a b : K, {a = b} + {a <> b}.

Fixpoint aget (k : K) (l : list (K * V)) : option V :=
  match l with [] => None | (k', v) :: l' => if eqd k k' then Some v else aget k l' end.
Fixpoint aset (k : K) (v : V) (l : list (K * V)) : list (K * V) :=
  match l with [] => [(k, v)] | (k', v') :: l' => if eqd k k' then (k, v) :: l' else (k', v') :: aset k v l' end.
Fixpoint adel (k : K) (l : list (K * V)) : list (K * V) :=
  match l with [] => [] | (k', v') :: l' => if eqd k k' then l' else (k', v') :: adel k l' end.
Definition awf (l : list (K * V)) : Prop := NoDup (map fst l).

Lemma aget_aset_same : forall k v l, aget k (aset k v l) = Some v.
Proof. induction l as [|[k' v'] l IH]; simpl; [destruct (eqd k k); congruence|]. destruct (eqd k k'); simpl; [destruct (eqd k k); congruence|]. destruct (eqd k k'); congruence. Qed.
Lemma aget_aset_other : forall k k' v l, k' <> k -> aget k' (aset k v l) = aget k' l.
Proof.
  induction l as [|[k2 v2] l IH]; intro N; simpl; [destruct (eqd k' k); congruence|].
  destruct (eqd k k2); simpl; [subst; destruct (eqd k' k2); congruence|]. destruct (eqd k' k2); auto.
Qed.
Lemma aget_aset : forall k k' v l, aget k' (aset k v l) = if eqd k' k then Some v else aget k' l.
Proof. intros. destruct (eqd k' k); [subst; apply aget_aset_same|now apply aget_aset_other]. Qed.
Lemma aget_none : forall k l, aget k l = None <-> ~ In k (map fst l).
Proof.
  induction l as [|[k' v'] l IH]; simpl; [tauto|]. destruct (eqd k k'); split; intro H; try congruence.
  - exfalso. apply H. auto.
  - intros [E|X]; [congruence|]. now apply IH in H.
  - apply IH. tauto.
Qed.
Lemma aget_some_in : forall k v l, aget k l = Some v -> In (k, v) l.
Proof. induction l as [|[k' v'] l IH]; simpl; [discriminate|]. destruct (eqd k k'); intro H; [inversion H; subst; auto|auto]. Qed.
Lemma aget_in : forall k v l, awf l -> In (k, v) l -> aget k l = Some v.
Proof.
  unfold awf. induction l as [|[k' v'] l IH]; simpl; [tauto|]. intros ND [E|H]; inversion ND; subst.
  - inversion E; subst. destruct (eqd k k); congruence.
  - destruct (eqd k k'); [subst; exfalso; apply H2; apply (in_map fst) in H; auto|auto].
Qed.
Lemma aset_keys : forall k v l x, In x (map fst (aset k v l)) <-> x = k \/ In x (map fst l).
Proof.
  induction l as [|[k' v'] l IH]; intro x; simpl; [intuition|]. destruct (eqd k k'); simpl; [subst; intuition|]. rewrite IH. intuition.
Qed.
Lemma aset_wf : forall k v l, awf l -> awf (aset k v l).
Proof.
  unfold awf. induction l as [|[k' v'] l IH]; intro ND; simpl; [repeat constructor; auto|]. inversion ND; subst.
  destruct (eqd k k'); simpl; [subst; auto|]. constructor; auto. rewrite aset_keys. intros [E|E]; congruence.
Qed.
Lemma aset_length : forall k v l, length (aset k v l) = match aget k l with Some _ => length l | None => S (length l) end.
Proof.
  induction l as [|[k' v'] l IH]; simpl; auto. destruct (eqd k k'); simpl; auto. rewrite IH. destruct (aget k l); auto.
Qed.
Lemma adel_in : forall k l x, In x (adel k l) -> In x l.
Proof. induction l as [|[k' v'] l IH]; simpl; auto. intros x. destruct (eqd k k'); simpl; intuition. Qed.
Lemma adel_wf : forall k l, awf l -> awf (adel k l).
Proof.
  unfold awf. induction l as [|[k' v'] l IH]; intro ND; simpl; auto. inversion ND; subst. destruct (eqd k k'); auto.
  simpl. constructor; auto. intro H. apply H1. apply in_map_iff in H. destruct H as (y & E & Hy). apply adel_in in Hy. rewrite <- E. now apply in_map.
Qed.
Lemma aget_adel : forall k k' l, awf l -> aget k' (adel k l) = if eqd k' k then None else aget k' l.
Proof.
  unfold awf. induction l as [|[k2 v2] l IH]; intro ND; simpl; [destruct (eqd k' k); auto|]. inversion ND; subst. destruct (eqd k k2).
  - subst. destruct (eqd k' k2); [subst; now apply aget_none|auto].
  - simpl. rewrite IH by auto. destruct (eqd k' k2), (eqd k' k); congruence.
Qed.
Lemma adel_length : forall k l, length (adel k l) = match aget k l with Some _ => pred (length l) | None => length l end.
Proof.
  induction l as [|[k' v'] l IH]; simpl; auto. destruct (eqd k k'); simpl; auto. rewrite IH. destruct (aget k l) eqn:E; auto.
  destruct l; [discriminate|reflexivity].
Qed.
Lemma awf_nil : awf [].
Proof. constructor. Qed.
Lemma aget_perm : forall l l' k, awf l -> Permutation l l' -> aget k l' = aget k l.
Proof.
  intros l l' k W P. assert (W' : awf l') by (unfold awf in *; eapply Permutation_NoDup; [apply Permutation_map; exact P|auto]).
  destruct (aget k l) as [v|] eqn:E.
  - apply aget_in; auto. apply aget_some_in in E. eapply Permutation_in; eauto.
  - apply aget_none. apply aget_none in E. intro H. apply E. eapply Permutation_in; [apply Permutation_sym, Permutation_map; exact P|auto].
Qed.
End AMAP.
