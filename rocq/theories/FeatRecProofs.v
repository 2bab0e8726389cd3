(** Recombination: hypotheses of equal state have the same future. *)
From Coq Require Import ZArith Arith List Bool Lia.
From Verif Require Import DecSpec DecModel DecGapProofs DecHypProofs FeatSpec FeatModel FeatProofs.
Import ListNotations.
Open Scope nat_scope.
Section R.
Variable src : list nat.
Notation n := (length src).
Definition endof (a : pairs) : nat := match a with [] => 0 | _ => snd (last (map fst a) (0, 0)) end.
Definition alike (f : feature) (a a' : pairs) : Prop :=
  (match f with FLang bos _ _ _ => history bos (words_of a) = history bos (words_of a') | _ => True end) /\
  tlen a = tlen a' /\ endof a = endof a' /\ forall j, covered (map fst a) j <-> covered (map fst a') j.
Lemma covered_app : forall a b j, covered (a ++ b) j <-> covered a j \/ covered b j.
Proof.
  intros a b j. split.
  - intros (s & S & J). apply in_app_iff in S. destruct S; [left|right]; exists s; auto.
  - intros [(s & S & J)|(s & S & J)]; exists s; (split; [apply in_app_iff; auto|auto]).
Qed.
Lemma endof_snoc : forall a p, endof (a ++ [p]) = snd (fst p).
Proof. intros a p. unfold endof. destruct (a ++ [p]) eqn:E; [destruct a; discriminate E|]. rewrite <- E, map_app. cbn [map]. now rewrite last_last. Qed.
Lemma alike_snoc : forall f a a' p, alike f a a' -> alike f (a ++ [p]) (a' ++ [p]).
Proof.
  intros f a a' p (A & B & C & D). split; [|split; [|split]].
  - destruct f; auto. unfold words_of in *. rewrite !flat_map_app, !history_app. now rewrite A.
  - rewrite !flat_map_app, !app_length. lia.
  - now rewrite !endof_snoc.
  - intro j. rewrite !map_app, !covered_app, D. tauto.
Qed.
Lemma alike_app : forall f b a a', alike f a a' -> alike f (a ++ b) (a' ++ b).
Proof.
  intros f. induction b as [|p b IH]; intros a a' A; [now rewrite !app_nil_r|]. specialize (IH (a ++ [p]) (a' ++ [p]) (alike_snoc _ _ _ p A)). rewrite <- !app_assoc in IH. exact IH.
Qed.
Lemma covb_ext : forall a a', (forall j, covered a j <-> covered a' j) -> forall j, covb a j = covb a' j.
Proof. intros a a' E j. destruct (covb a j) eqn:X, (covb a' j) eqn:Y; auto; [apply covb_spec, E, covb_spec in X|apply covb_spec, E, covb_spec in Y]; congruence. Qed.
Lemma gap_ext : forall a a' l, (forall j, covered a j <-> covered a' j) -> gap_right src a l = gap_right src a' l.
Proof. intros a a' l E. unfold gap_right. f_equal. apply filter_ext. exact (covb_ext a a' E). Qed.
Lemma seg_val_ext : forall f a a' p, alike f a a' -> seg_val src f a p = seg_val src f a' p.
Proof.
  intros f a a' p (A & B & C & D). destruct f; cbn [seg_val segment_score]; auto.
  - now rewrite A.
  - now rewrite B.
  - assert (X : forall a : pairs, match a with [] => 1 | _ => S (snd (last (map fst a) (0, 0))) end = S (endof a)) by (intros []; reflexivity). now rewrite !X, C.
  - now rewrite (gap_ext _ _ _ D).
Qed.
Lemma vals_ext : forall f b a a', alike f a a' -> vals src f a b = vals src f a' b.
Proof. intros f. induction b as [|p b IH]; intros a a' A; cbn [vals]; [auto|]. rewrite (seg_val_ext f a a' p A). f_equal. apply IH, alike_snoc, A. Qed.
Lemma all_ext : forall a a', (forall j, covered a j <-> covered a' j) -> all_covered n a = all_covered n a'.
Proof.
  intros a a' E. unfold all_covered. pose proof (covb_ext a a' E) as X. unfold covb in X. induction (seq 1 n) as [|x l IH]; cbn [forallb]; [auto|]. now rewrite X, IH.
Qed.
Lemma alike_map : forall f a a', alike f a a' -> forall j, covered (map fst a) j <-> covered (map fst a') j.
Proof. intros f a a' (_ & _ & _ & D). exact D. Qed.
Lemma fin_ext : forall f a a', alike f a a' -> fin src f a = fin src f a'.
Proof.
  intros f a a' A. unfold fin. rewrite (all_ext _ _ (alike_map _ _ _ A)). destruct A as (A & B & _). destruct (all_covered n (map fst a')); auto. destruct f; auto; [now rewrite A|unfold words_of; now rewrite B].
Qed.
Lemma feature_ext : forall f b a a', alike f a a' -> all_covered n (map fst a) = false ->
  (feature_score src f (a ++ b) - feature_score src f a = feature_score src f (a' ++ b) - feature_score src f a')%Z.
Proof.
  intros f b a a' A N. rewrite !feature_part. pose proof (vals_ext f b a a' A) as V. rewrite !vals_part in V. pose proof (fin_ext f _ _ (alike_app f b a a' A)) as F.
  pose proof (fin_ext f _ _ A) as F0. assert (fin src f a = 0%Z) by (unfold fin; now rewrite N). lia.
Qed.
Lemma well_ext : forall a a' b : pairs, well_segmented n (map fst a') -> (forall j, covered (map fst a) j <-> covered (map fst a') j) -> well_segmented n (map fst (a ++ b)) -> well_segmented n (map fst (a' ++ b)).
Proof.
  intros a a' b W' E W. rewrite map_app in *. destruct W as (F & D), W' as (F' & D'). apply Forall_app in F. split; [apply Forall_app; tauto|].
  assert (DB : ForallOrdPairs disjoint (map fst b)). { clear F E. induction (map fst a) as [|x l IH]; [exact D|]. cbn [app] in D. inversion D; subst. auto. }
  assert (AB : forall s t, In s (map fst a) -> In t (map fst b) -> disjoint s t).
  { clear F F' D' E DB. induction (map fst a) as [|x l IH]; intros s t S T; [destruct S|]. cbn [app] in D. inversion D; subst. destruct S as [->|S]; [|auto]. rewrite Forall_forall in H1. apply H1, in_app_iff. auto. }
  assert (AB' : forall s t, In s (map fst a') -> In t (map fst b) -> disjoint s t).
  { intros s t S T j (J1 & J2). destruct (proj2 (E j)) as (s0 & S0 & J0); [exists s; auto|]. apply (AB s0 t S0 T j). auto. }
  clear -D' DB AB'. induction (map fst a') as [|x l IH]; [exact DB|]. cbn [app]. inversion D'; subst. constructor.
  - apply Forall_app. split; [auto|]. apply Forall_forall. intros t T. apply AB'; [now left|auto].
  - apply IH; [auto|]. intros s t S T. apply AB'; [now right|auto].
Qed.
(** the language model history *)
Definition is_lm (f : feature) : bool := match f with FLang _ _ _ _ => true | _ => false end.
Lemma hists_nolm : forall fs ps h, forallb (fun fw => negb (is_lm (fst fw))) fs = true -> hists src fs ps h = h.
Proof. intros fs ps. unfold hists. induction fs as [|[f w] fs IH]; intros h N; cbn [fold_left forallb] in *; [auto|]. apply andb_true_iff in N. destruct N as [N1 N2]. rewrite IH by auto. destruct f; auto; discriminate. Qed.
Lemma hists_one : forall f1 f w f2 ps h, forallb (fun fw => negb (is_lm (fst fw))) f2 = true -> is_lm f = true -> hists src (f1 ++ (f, w) :: f2) ps h = hist_after src f ps [].
Proof.
  intros f1 f w f2 ps h N L. unfold hists. rewrite fold_left_app. cbn [fold_left fst]. pose proof (hists_nolm f2 ps) as X. unfold hists in X. rewrite X by auto. destruct f; try discriminate. reflexivity.
Qed.
End R.
