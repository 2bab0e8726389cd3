(** Proofs for KbModel.v. *)
From Coq Require Import Ascii String Arith ZArith QArith Qminmax List Bool Lia Lqa Permutation.
From Verif Require Import TextSpec KbSpec KbModel.
Import ListNotations.
Local Open Scope nat_scope.
Lemma qlt_true a b : qlt a b = true -> (a < b)%Q.
Proof. unfold qlt. rewrite negb_true_iff. intro H. apply Qnot_le_lt. intro K. apply Qle_bool_iff in K. congruence. Qed.
Lemma qlt_false a b : qlt a b = false -> (b <= a)%Q.
Proof. unfold qlt. rewrite negb_false_iff. intro H. now apply Qle_bool_iff. Qed.
Lemma qlt_iff a b : qlt a b = true <-> (a < b)%Q.
Proof.
  split; [apply qlt_true|]. intro H. destruct (qlt a b) eqn:E; auto. apply qlt_false in E. lra.
Qed.
Lemma dot_spec w : forall f acc, length f = length w -> exists s, dot w f acc = Some s /\ (s == acc + inner w f)%Q.
Proof.
  induction w as [|x w IH]; intros [|y f] acc H; simpl in *; try discriminate.
  - exists acc. split; auto. lra.
  - destruct (IH f (acc + x * y)%Q ltac:(congruence)) as [s [A B]]. exists s. split; auto. lra.
Qed.
Lemma inner_comm a : forall b, (inner a b == inner b a)%Q.
Proof. induction a as [|x a IH]; intros [|y b]; simpl; try lra. rewrite IH. lra. Qed.
Lemma sq_nonneg a : (0 <= sq a)%Q.
Proof. unfold sq. induction a as [|x a IH]; simpl; [lra|]. assert (0 <= x * x)%Q by nra. lra. Qed.
Lemma vsub_spec h : forall f, length f = length h -> vsub h f = Some (minus_v h f).
Proof. induction h as [|x h IH]; intros [|y f] H; simpl in *; try discriminate; auto. rewrite (IH f) by congruence. auto. Qed.
Lemma minus_length h : forall f, length f = length h -> length (minus_v h f) = length h.
Proof. induction h as [|x h IH]; intros [|y f] H; simpl in *; try discriminate; auto. Qed.
Fixpoint axpy (eta : Q) (d w : vec) : vec := match d, w with x :: d', y :: w' => (y + eta * x)%Q :: axpy eta d' w' | _, _ => [] end.
Lemma vaxpy_spec eta d : forall w, length w = length d -> vaxpy eta d w = Some (axpy eta d w).
Proof. induction d as [|x h IH]; intros [|y f] H; simpl in *; try discriminate; auto. rewrite (IH f) by congruence. auto. Qed.
Lemma axpy_length eta d : forall w, length w = length d -> length (axpy eta d w) = length d.
Proof. induction d as [|x h IH]; intros [|y f] H; simpl in *; try discriminate; auto. Qed.
(** ** the algebra of a step *)
Lemma sq_step eta d : forall w, length w = length d -> (sq (minus_v (axpy eta d w) w) == eta * eta * sq d)%Q.
Proof. unfold sq. induction d as [|x h IH]; intros [|y f] H; simpl in *; try discriminate; [lra|]. rewrite IH by congruence. ring. Qed.
Lemma inner_step eta d : forall w e, length w = length d -> length e = length d -> (inner (axpy eta d w) e == inner w e + eta * inner d e)%Q.
Proof. induction d as [|x h IH]; intros [|y f] [|z e] H H'; simpl in *; try discriminate; [lra|]. rewrite IH by congruence. ring. Qed.
Lemma sq_other eta d : forall w v, length w = length d -> length v = length d ->
  (sq (minus_v v (axpy eta d w)) == sq (minus_v v w) - 2 * eta * (inner v d - inner w d) + eta * eta * sq d)%Q.
Proof. unfold sq. induction d as [|x h IH]; intros [|y f] [|z e] H H'; simpl in *; try discriminate; [lra|]. rewrite IH by congruence. ring. Qed.
Lemma hinge_nonneg delta d w : (0 <= hinge delta d w)%Q.
Proof. apply Q.le_max_l. Qed.
Lemma hinge_ge delta d w : (delta - inner w d <= hinge delta d w)%Q.
Proof. apply Q.le_max_r. Qed.
Lemma hinge_eq delta d w : (0 <= delta - inner w d)%Q -> (hinge delta d w == delta - inner w d)%Q.
Proof. intro H. unfold hinge. now apply Q.max_r. Qed.
Lemma pa_step C d w delta (N := sq d) (L := (delta - inner w d)%Q) (eta := if Qeq_bool N 0 then C else Qmin C (L / N)) :
  (0 <= C)%Q -> length w = length d -> (0 < L)%Q -> forall v, length v = length d ->
  (objective C w delta d (axpy eta d w) + (1 # 2) * sq (minus_v v (axpy eta d w)) <= objective C w delta d v)%Q.
Proof.
  intros HC Hw HL v Hv. unfold objective.
  assert (A : (inner (axpy eta d w) d == inner w d + eta * N)%Q) by (unfold N, sq; now apply inner_step).
  rewrite sq_step by auto. rewrite sq_other by auto. fold N.
  assert (HN : (0 <= N)%Q) by apply sq_nonneg.
  pose proof (hinge_nonneg delta d v) as H0. pose proof (hinge_ge delta d v) as H1.
  assert (B : (0 <= eta <= C /\ eta * N <= L /\ (eta == C \/ eta * N == L))%Q).
  { unfold eta. destruct (Qeq_bool N 0) eqn:E.
    - apply Qeq_bool_iff in E. split; [lra|]. split; [|left; lra]. rewrite E. lra.
    - assert (NZ : (0 < N)%Q).
      { destruct (Qlt_le_dec 0 N) as [K|K]; auto. assert (Z : (N == 0)%Q) by lra. apply Qeq_bool_iff in Z. congruence. }
      assert (D : (0 < L / N)%Q) by (apply Qlt_shift_div_l; lra).
      assert (M : (L / N * N == L)%Q) by (field; lra).
      pose proof (Q.le_min_l C (L / N)%Q) as M1. pose proof (Q.le_min_r C (L / N)%Q) as M2.
      destruct (Q.min_spec C (L / N)%Q) as [[K1 K2]|[K1 K2]].
      + rewrite K2. split; [lra|]. split; [|left; lra]. rewrite <- M. nra.
      + rewrite K2. split; [lra|]. split; [lra|]. right. lra. }
  destruct B as [B1 [B2 B3]].
  assert (HG : (hinge delta d (axpy eta d w) == L - eta * N)%Q).
  { rewrite hinge_eq; rewrite A; unfold L in *; lra. }
  rewrite HG. set (hv := hinge delta d v) in *. set (p := inner v d) in *. set (q := inner w d) in *.
  assert (K : (eta * eta * N + C * (L - eta * N) - eta * (p - q) <= C * hv)%Q).
  { assert (J : (eta * (L - (p - q)) <= C * hv)%Q).
    { destruct (Qlt_le_dec (L - (p - q)) 0) as [G|G].
      - assert (eta * (L - (p - q)) <= 0)%Q by nra. assert (0 <= C * hv)%Q by nra. lra.
      - assert (L - (p - q) <= hv)%Q by (unfold L, p, q in *; lra). nra. }
    destruct B3 as [B3|B3].
    - rewrite B3 in *. assert (C * C * N + C * (L - C * N) == C * L)%Q by ring. lra.
    - assert (E1 : (eta * eta * N == eta * L)%Q) by (rewrite <- Qmult_assoc, B3; lra). rewrite E1.
      assert (E2 : (L - eta * N == 0)%Q) by lra. rewrite E2. lra. }
  lra.
Qed.
(** ** largest elements *)
Lemma first_best_best f nb h : first_best f nb h -> best f nb h.
Proof.
  intros [pre [post [E [A B]]]]. subst. split; [apply in_elt|]. intros x Hx. apply in_app_or in Hx. destruct Hx as [H|[ <- |H]].
  - apply A in H. lra.
  - lra.
  - now apply B.
Qed.
Lemma max_loop_spec wv nb : forall cur t, (forall x, In x nb -> length (snd x) = length wv) -> max_loop wv nb (cur, t) <> None.
Proof.
  induction nb as [|[u f] nb IH]; intros cur t H; simpl; [discriminate|]. assert (Lf : length f = length wv) by (apply (H (u, f)); now left).
  destruct (dot_spec wv f 0%Q Lf) as [s [E _]]. rewrite E. destruct (match cur with None => true | Some m => qlt m s end); apply IH; intros; apply H; now right.
Qed.
Lemma max_loop_best wv nb : forall pre h post m t, (forall x, In x (pre ++ h :: post ++ nb) -> length (snd x) = length wv) ->
  (forall x, In x pre -> (inner wv (snd x) < inner wv (snd h))%Q) -> (forall x, In x post -> (inner wv (snd x) <= inner wv (snd h))%Q) -> (m == inner wv (snd h))%Q -> t = fst h ->
  exists g, first_best (fun x => inner wv (snd x)) (pre ++ h :: post ++ nb) g /\ max_loop wv nb (Some m, t) = Some (fst g).
Proof.
  induction nb as [|[u f] nb IH]; intros pre h post m t HL A B Em Et; simpl.
  - exists h. split; [|now subst]. exists pre, (post ++ []). repeat split; auto. rewrite app_nil_r. auto.
  - assert (Lf : length f = length wv) by (apply (HL (u, f)); apply in_or_app; right; right; apply in_or_app; right; now left).
    destruct (dot_spec wv f 0%Q Lf) as [s [E Es]]. rewrite E. destruct (qlt m s) eqn:K.
    + apply qlt_true in K. specialize (IH (pre ++ h :: post) (u, f) [] s u). simpl in IH.
      replace ((pre ++ h :: post) ++ (u, f) :: nb) with (pre ++ h :: post ++ (u, f) :: nb) in IH by (rewrite <- app_assoc; auto).
      apply IH; auto; [|intros x []|lra]. intros x Hx. apply in_app_or in Hx. destruct Hx as [Hx|[ <- |Hx]].
      * specialize (A _ Hx). lra.
      * lra.
      * specialize (B _ Hx). lra.
    + apply qlt_false in K. specialize (IH pre h (post ++ [(u, f)]) m t).
      replace (pre ++ h :: (post ++ [(u, f)]) ++ nb) with (pre ++ h :: post ++ (u, f) :: nb) in IH by (rewrite <- app_assoc; auto).
      apply IH; auto. intros x Hx. apply in_app_or in Hx. destruct Hx as [Hx|[ <- |[]]]; [now apply B|]. simpl. lra.
Qed.
Lemma MaxTranslation_spec wv nb t : nb <> [] -> (forall x, In x nb -> length (snd x) = length wv) ->
  exists g, first_best (fun x => inner wv (snd x)) nb g /\ MaxTranslation wv nb t = Some (fst g).
Proof.
  destruct nb as [|[u f] nb]; [congruence|]. intros _ H. unfold MaxTranslation. simpl.
  assert (Lf : length f = length wv) by (apply (H (u, f)); now left). destruct (dot_spec wv f 0%Q Lf) as [s [E Es]]. rewrite E.
  apply (max_loop_best wv nb [] (u, f) [] s u); auto.
  - intros x [].
  - intros x [].
  - simpl. lra.
Qed.
Section SC.
Variable sc : scorer.
Definition qual (bg : bgst sc) (ref : str) (h : hyp) : Q := fst (sentBackgroundScore sc bg (fst h) ref).
Definition hopes (bg : bgst sc) (ref : str) (w : vec) (h : hyp) : Q := (inner w (snd h) + qual bg ref h)%Q.
Definition fears (bg : bgst sc) (ref : str) (w : vec) (h : hyp) : Q := (inner w (snd h) - qual bg ref h)%Q.
(** what the loop holds *)
Definition holds (bg : bgst sc) (ref : str) (w : vec) (nb : list hyp) (r : hopefear) : Prop :=
  exists h f, first_best (hopes bg ref w) nb h /\ first_best (fears bg ref w) nb f /\ hopeF r = snd h /\ hopeQ r = qual bg ref h /\ hopeStats r = snd (sentBackgroundScore sc bg (fst h) ref) /\
    (hopeTot r == hopes bg ref w h)%Q /\ fearF r = snd f /\ fearQ r = qual bg ref f /\ (fearTot r == fears bg ref w f)%Q.
Lemma first_best_more f nb h x : first_best f nb h -> (f x <= f h)%Q -> first_best f (nb ++ [x]) h.
Proof.
  intros [pre [post [E [A B]]]] H. subst. exists pre, (post ++ [x]). repeat split; auto.
  - now rewrite <- app_assoc.
  - intros y Hy. apply in_app_or in Hy. destruct Hy as [Hy|[ <- |[]]]; auto.
Qed.
Lemma first_best_new f nb h x : first_best f nb h -> (f h < f x)%Q -> first_best f (nb ++ [x]) x.
Proof.
  intros B H. exists nb, []. repeat split; auto.
  - intros y Hy. apply (proj2 (first_best_best _ _ _ B)) in Hy. lra.
  - intros y [].
Qed.
Lemma hf_loop_spec bg ref wv nb : forall done r, (forall x, In x nb -> length (snd x) = length wv) -> holds bg ref wv done r ->
  exists r', hf_loop sc bg ref nb wv (Some r) = Some (Some r') /\ holds bg ref wv (done ++ nb) r'.
Proof.
  induction nb as [|[u f] nb IH]; intros done r HL H; simpl.
  - exists r. rewrite app_nil_r. auto.
  - assert (Lf : length f = length wv) by (apply (HL (u, f)); now left). destruct (dot_spec wv f 0%Q Lf) as [s [E Es]]. rewrite E.
    destruct (sentBackgroundScore sc bg u ref) as [q st] eqn:Q.
    destruct H as [h [g [H1 [H2 [H3 [H4 [H5 [H6 [H7 [H8 H9]]]]]]]]]].
    assert (QX : qual bg ref (u, f) = q) by (unfold qual; simpl; now rewrite Q).
    assert (S' : snd (sentBackgroundScore sc bg u ref) = st) by now rewrite Q.
    assert (HX : (hopes bg ref wv (u, f) == s + q)%Q) by (unfold hopes; rewrite QX; simpl; lra).
    assert (FX : (fears bg ref wv (u, f) == s - q)%Q) by (unfold fears; rewrite QX; simpl; lra).
    replace (done ++ (u, f) :: nb) with ((done ++ [(u, f)]) ++ nb) by (rewrite <- app_assoc; auto).
    match goal with |- context [qlt (hopeTot r) ?e] => destruct (qlt (hopeTot r) e) eqn:K1 end.
    + apply qlt_true in K1. simpl. destruct (qlt (fearTot r) (s - q)) eqn:K2; apply IH; try (intros; apply HL; now right).
      * apply qlt_true in K2. exists (u, f), (u, f). cbn [hopeF hopeQ hopeStats hopeTot fearF fearQ fearTot]. repeat split; auto; try (simpl; lra).
        -- eapply first_best_new; [exact H1|]. lra.
        -- eapply first_best_new; [exact H2|]. lra.
      * apply qlt_false in K2. exists (u, f), g. cbn [hopeF hopeQ hopeStats hopeTot fearF fearQ fearTot]. repeat split; auto; try (simpl; lra).
        -- eapply first_best_new; [exact H1|]. lra.
        -- apply first_best_more; auto. lra.
    + apply qlt_false in K1. destruct (qlt (fearTot r) (s - q)) eqn:K2; apply IH; try (intros; apply HL; now right).
      * apply qlt_true in K2. exists h, (u, f). cbn [hopeF hopeQ hopeStats hopeTot fearF fearQ fearTot]. repeat split; auto; try (simpl; lra).
        -- apply first_best_more; auto. lra.
        -- eapply first_best_new; [exact H2|]. lra.
      * apply qlt_false in K2. exists h, g. repeat split; auto; try (simpl; lra); apply first_best_more; auto; lra.
Qed.
Lemma HopeFear_spec bg ref wv nb : nb <> [] -> (forall x, In x nb -> length (snd x) = length wv) ->
  exists r, hf_loop sc bg ref nb wv None = Some (Some r) /\ holds bg ref wv nb r.
Proof.
  destruct nb as [|[u f] nb]; [congruence|]. intros _ HL. simpl.
  assert (Lf : length f = length wv) by (apply (HL (u, f)); now left). destruct (dot_spec wv f 0%Q Lf) as [s [E Es]]. rewrite E.
  destruct (sentBackgroundScore sc bg u ref) as [q st] eqn:Q.
  assert (QX : qual bg ref (u, f) = q) by (unfold qual; simpl; now rewrite Q).
  assert (S' : snd (sentBackgroundScore sc bg u ref) = st) by now rewrite Q.
  apply (hf_loop_spec bg ref wv nb [(u, f)]); [intros; apply HL; now right|].
  assert (HX : (hopes bg ref wv (u, f) == s + q)%Q) by (unfold hopes; rewrite QX; simpl; lra).
  assert (FX : (fears bg ref wv (u, f) == s - q)%Q) by (unfold fears; rewrite QX; simpl; lra).
  assert (FB : forall F, first_best F [(u, f)] (u, f)) by (intro F; exists [], []; split; [auto|]; split; intros x []).
  exists (u, f), (u, f). cbn [hopeF hopeQ hopeStats hopeTot fearF fearQ fearTot]. repeat split; auto; try (simpl; lra).
Qed.
End SC.
