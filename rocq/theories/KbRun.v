(** Proofs for KbModel.v: restarts and shuffling. *)
From Coq Require Import Ascii String Arith ZArith QArith Qminmax List Bool Lia Lqa Permutation.
From Verif Require Import TextSpec KbSpec KbModel KbProofs.
Import ListNotations.
Local Open Scope nat_scope.
Definition column (l : list vec) (k : nat) : Q := fold_right Qplus 0%Q (map (fun w => nth k w 0%Q) l).
Lemma axpy_nth eta d : forall w k, length w = length d -> k < length d -> (nth k (axpy eta d w) 0 == nth k w 0 + eta * nth k d 0)%Q.
Proof. induction d as [|x d IH]; intros [|y w] k H K; simpl in *; try lia; try discriminate. destruct k; simpl; [lra|]. apply IH; lia. Qed.
Section SC.
Variable sc : scorer.
(** a step on some example at some background *)
Definition ex_step (C : Q) (ex : list (str * list hyp)) (w w' : vec) : Prop :=
  exists ref nb bg, In (ref, nb) ex /\ kb_step C nb (fun h => fst (sentBackgroundScore sc bg (fst h) ref)) w w'.
Definition wf_list (n : nat) (nb : list hyp) : Prop := nb <> [] /\ forall x, In x nb -> length (snd x) = n.
Definition track (C : Q) (ex : list (str * list hyp)) (w0 : vec) (s : run sc) (l : list vec) : Prop :=
  visited (ex_step C ex) w0 l /\ hd [] l = r_wt sc s /\ length l = r_n sc s /\ length (r_wt sc s) = length w0 /\ length (r_tot sc s) = length w0 /\
  (forall w, In w l -> length w = length w0) /\ forall k, k < length w0 -> (nth k (r_tot sc s) 0 == column l k)%Q.
Lemma learn_spec C ex w0 ref nb s l : (0 <= C)%Q -> In (ref, nb) ex -> wf_list (length w0) nb -> track C ex w0 s l ->
  exists s' l', learn sc C ref nb s = Some s' /\ track C ex w0 s' l'.
Proof.
  intros HC Hin [Hne HL] T. destruct T as [V [Hd [Ln [L1 [L2 [LA Tot]]]]]]. unfold learn.
  destruct (HopeFear_spec sc (r_bg sc s) ref (r_wt sc s) nb Hne) as [r [E H]]; [intros; rewrite HL; auto|]. rewrite E.
  destruct H as [h [f [H1 [H2 [H3 [H4 [H5 [H6 [H7 [H8 H9]]]]]]]]]]. rewrite H3, H4, H5, H7, H8.
  apply first_best_best in H1, H2.
  assert (Lh : length (snd h) = length w0) by (apply HL; apply H1). assert (Lf : length (snd f) = length w0) by (apply HL; apply H2).
  destruct (qlt (qual sc (r_bg sc s) ref f) (qual sc (r_bg sc s) ref h)) eqn:K; [|exists s, l; split; [auto|]; repeat split; auto].
  rewrite vsub_spec by congruence. set (d := minus_v (snd h) (snd f)).
  assert (Ld : length d = length w0) by (unfold d; rewrite minus_length; congruence).
  destruct (dot_spec d (r_wt sc s) 0%Q) as [p [E1 P1]]; [congruence|]. rewrite E1.
  destruct (qlt 0 (qual sc (r_bg sc s) ref h - qual sc (r_bg sc s) ref f - p)) eqn:K2; [|eexists _, l; split; [reflexivity|]; repeat split; auto].
  destruct (dot_spec d d 0%Q eq_refl) as [N [E2 P2]]. rewrite E2.
  set (eta' := (if Qeq_bool N 0 then C else Qmin C ((qual sc (r_bg sc s) ref h - qual sc (r_bg sc s) ref f - p) / N))).
  rewrite vaxpy_spec by congruence. set (w' := axpy eta' d (r_wt sc s)).
  assert (Lw' : length w' = length w0) by (unfold w'; rewrite axpy_length; congruence).
  rewrite firstn_all2 by lia. rewrite vaxpy_spec by congruence.
  apply qlt_true in K, K2. rewrite inner_comm in P1.
  eexists _, (w' :: l). split; [reflexivity|]. unfold track. cbn [r_wt r_n r_tot].
  assert (Step : ex_step C ex (r_wt sc s) w').
  { exists ref, nb, (r_bg sc s). split; auto. exists h, f. fold (qual sc (r_bg sc s) ref h). fold (qual sc (r_bg sc s) ref f). fold d.
    split; [exact H1|]. split; [exact H2|]. split; [exact K|]. split; [lra|]. split; [congruence|]. intros v Hv.
    set (delta := (qual sc (r_bg sc s) ref h - qual sc (r_bg sc s) ref f)%Q) in *.
    pose proof (pa_step C d (r_wt sc s) delta HC ltac:(congruence) ltac:(lra) v ltac:(congruence)) as PA. cbv zeta in PA.
    set (eta := (if Qeq_bool (sq d) 0 then C else Qmin C ((delta - inner (r_wt sc s) d) / sq d))) in *.
    assert (EE : (eta' == eta)%Q).
    { unfold eta', eta. assert (NN : (N == sq d)%Q) by (unfold sq; lra).
      destruct (Qeq_bool N 0) eqn:A1; destruct (Qeq_bool (sq d) 0) eqn:A2; try lra.
      - apply Qeq_bool_iff in A1. rewrite NN in A1. apply Qeq_bool_iff in A1. congruence.
      - apply Qeq_bool_iff in A2. rewrite <- NN in A2. apply Qeq_bool_iff in A2. congruence.
      - apply Q.min_compat; [lra|]. rewrite NN. assert (delta - p == delta - inner (r_wt sc s) d)%Q by lra. rewrite H. lra. }
    unfold objective in *. unfold w'. revert PA.
    unfold hinge. assert (I1 : (inner (axpy eta' d (r_wt sc s)) d == inner (axpy eta d (r_wt sc s)) d)%Q) by (rewrite !inner_step by congruence; rewrite EE; lra).
    rewrite I1. rewrite !sq_step by congruence. rewrite !sq_other by congruence. rewrite !EE. auto. }
  split; [|split; [auto|split; [simpl; congruence|split; [congruence|split; [rewrite axpy_length; congruence|split]]]]].
  - destruct l as [|w1 l]; [inversion V|]. simpl in Hd. subst w1. now apply vis_step.
  - intros w [ <- |Hw]; auto.
  - intros k Hk. rewrite axpy_nth by (rewrite ?Lw'; congruence || lia). rewrite (Tot k Hk). unfold column. simpl. lra.
Qed.
Lemma average_spec C ex w0 s l : track C ex w0 s l -> length (average sc s) = length w0 /\ is_mean (average sc s) l.
Proof.
  intros [V [Hd [Ln [L1 [L2 [LA Tot]]]]]].
  assert (LL : length (average sc s) = length w0) by (unfold average; now rewrite map_length).
  split; auto. intros w Hw. rewrite LL. split; [symmetry; auto|]. intros k Hk. fold (column l k). rewrite <- (Tot k Hk).
  unfold average. set (n := inject_Z (Z.of_nat (r_n sc s))).
  assert (E : nth k (map (fun t => (t / n)%Q) (r_tot sc s)) 0%Q = (nth k (r_tot sc s) 0 / n)%Q).
  { rewrite (nth_indep _ 0%Q (0 / n)%Q) by (rewrite map_length; lia). apply map_nth with (f := fun t => (t / n)%Q). }
  rewrite E, Ln. fold n. field. unfold n. assert (0 < r_n sc s) by (rewrite <- Ln; destruct l; [inversion V|simpl; lia]).
  intro Z. change 0%Q with (inject_Z 0) in Z. apply (proj1 (inject_Z_injective _ _)) in Z. lia.
Qed.
(** ** restarts, for any pass over the examples and any evaluation *)
Section LOOP.
Variable pass : run sc -> nat -> option (run sc * nat).
Variable eval : vec -> option Q.
Variable C : Q.
Variable ex : list (str * list hyp).
Variable w0 : vec.
Variable scored : vec -> Q -> Prop.
Hypothesis pass_ok : forall s g l, track C ex w0 s l -> exists s' g' l', pass s g = Some (s', g') /\ track C ex w0 s' l'.
Hypothesis eval_ok : forall a, length a = length w0 -> exists q, eval a = Some q /\ scored a q.
Definition evaluated (a : vec) (q : Q) : Prop := scored a q /\ exists l, visited (ex_step C ex) w0 l /\ is_mean a l.
Definition best_of (evals : list (vec * Q)) (mx : Q * vec) : Prop :=
  (0 <= fst mx)%Q /\ (forall a q, In (a, q) evals -> (q <= fst mx)%Q) /\ (In (snd mx, fst mx) evals /\ (0 < fst mx)%Q \/ mx = (0%Q, [])).
Lemma best_chosen evals mx : best_of evals mx -> chosen evals (snd mx).
Proof.
  intros [A [B [[D E]|D]]].
  - left. exists (fst mx). auto.
  - right. subst. split; [reflexivity|]. exact B.
Qed.
Lemma best_of_add evals mx a q : best_of evals mx -> best_of (evals ++ [(a, q)]) (if qlt (fst mx) q then (q, a) else mx).
Proof.
  intros [A [B D]]. destruct (qlt (fst mx) q) eqn:E.
  - apply qlt_true in E. unfold best_of. cbn [fst snd]. split; [lra|]. split.
    + intros a' q' H. apply in_app_or in H. destruct H as [H|[H|[]]]; [apply B in H; lra|]. inversion H. subst. lra.
    + left. split; [|lra]. apply in_or_app. right. now left.
  - apply qlt_false in E. split; auto. split.
    + intros a' q' H. apply in_app_or in H. destruct H as [H|[H|[]]]; [now apply B in H|]. inversion H. now subst.
    + destruct D as [[D1 D2]|D]; auto. left. split; auto. apply in_or_app. now left.
Qed.
Lemma epochs_spec epr todo : forall j s g im mx evals l, track C ex w0 s l -> best_of evals mx -> (fst im <= fst mx)%Q -> snd im <= j ->
  exists s' g' mx' new, epochs sc pass eval epr todo j s g im mx = Some (s', g', mx') /\ best_of (evals ++ new) mx' /\ Forall (fun p => evaluated (fst p) (snd p)) new /\
    length new <= todo /\ (length new = todo \/ epr + 2 <= j + length new).
Proof.
  induction todo as [|todo IH]; intros j s g im mx evals l T B HI HJ; simpl.
  - exists s, g, mx, []. rewrite app_nil_r. split; auto.
  - destruct (pass_ok s g l T) as [s1 [g1 [l1 [E T1]]]]. rewrite E.
    destruct (average_spec _ _ _ _ _ T1) as [La Me]. destruct (eval_ok _ La) as [q [Eq Sq]]. rewrite Eq.
    assert (EV : evaluated (average sc s1) q) by (split; auto; exists l1; split; auto; apply T1).
    pose proof (best_of_add evals mx (average sc s1) q B) as B1.
    match goal with |- context [let '(_, _) := ?e in _] => set (P := e) end.
    assert (HP : best_of (evals ++ [(average sc s1, q)]) (snd P) /\ (fst (fst P) <= fst (snd P))%Q /\ snd (fst P) <= j).
    { unfold P. destruct (qlt (fst im) q) eqn:K.
      - cbn [fst snd]. split; auto. split; [|lia]. destruct (qlt (fst mx) q) eqn:K2; [cbn; lra|]. now apply qlt_false in K2.
      - cbn [fst snd]. split; auto. apply qlt_false in K. destruct (qlt (fst mx) q) eqn:K2; auto. apply qlt_true in K2. lra. }
    destruct P as [im1 mx1]. cbn [fst snd] in HP. destruct HP as [B2 [HI2 HJ2]].
    destruct (epr <? j - snd im1) eqn:K.
    + apply Nat.ltb_lt in K. exists s1, g1, mx1, [(average sc s1, q)]. split; [auto|]. split; [auto|]. split; [constructor; auto|]. simpl. split; [lia|]. right. lia.
    + destruct (IH (S j) s1 g1 im1 mx1 _ l1 T1 B2 HI2 ltac:(lia)) as [s2 [g2 [mx2 [new [E2 [B3 [F [Ln Ln2]]]]]]]].
      exists s2, g2, mx2, ((average sc s1, q) :: new). split; [auto|]. rewrite <- app_assoc in B3. split; [exact B3|]. split; [constructor; auto|]. simpl. split; [lia|]. destruct Ln2; lia.
Qed.
Lemma track_start bg : track C ex w0 (mkrun sc bg w0 w0 1) [w0].
Proof.
  unfold track. cbn [r_wt r_n r_tot]. split; [constructor|]. repeat split; auto.
  - intros w [ <- |[]]; auto.
  - intros k Hk. unfold column. simpl. lra.
Qed.
Lemma restarts_spec epr nIters n : forall bg g mx evals, best_of evals mx ->
  exists r new mx', restarts sc pass eval epr nIters n w0 bg g mx = Some r /\ r = snd mx' /\ best_of (evals ++ new) mx' /\ Forall (fun p => evaluated (fst p) (snd p)) new /\
    n * min nIters (epr + 2) <= length new <= n * nIters.
Proof.
  induction n as [|n IH]; intros bg g mx evals B; simpl.
  - exists (snd mx), [], mx. rewrite app_nil_r. split; auto.
  - destruct (epochs_spec epr nIters 0 (mkrun sc bg w0 w0 1) g (0%Q, 0) mx evals [w0] (track_start bg) B (proj1 B) (le_n _)) as [s [g' [mx' [new [E [B1 [F [L1 L2]]]]]]]].
    rewrite E. destruct (IH (r_bg sc s) g' mx' _ B1) as [r [new2 [mx2 [E2 [R2 [B2 [F2 L3]]]]]]].
    exists r, (new ++ new2), mx2. split; auto. split; auto. rewrite app_assoc. split; auto. split; [apply Forall_app; auto|]. rewrite app_length.
    assert (min nIters (epr + 2) <= length new) by lia. lia.
Qed.
Lemma restarts_start epr nIters n bg g :
  exists r new, restarts sc pass eval epr nIters n w0 bg g (0%Q, []) = Some r /\ chosen new r /\ Forall (fun p => evaluated (fst p) (snd p)) new /\ n * min nIters (epr + 2) <= length new <= n * nIters.
Proof.
  destruct (restarts_spec epr nIters n bg g (0%Q, []) []) as [r [new [mx [E [R [B [F L]]]]]]].
  - split; [cbn; lra|]. split; [|right; reflexivity]. intros a q H. exact (False_ind _ H).
  - exists r, new. split; [exact E|]. subst r. split; [now apply best_chosen in B|]. split; [exact F|exact L].
Qed.
End LOOP.
(** ** the two entry points *)
Definition sent_scored (nb : list hyp) (ref : str) (a : vec) (q : Q) : Prop := exists h, first_best (fun x => inner a (snd x)) nb h /\ q = sentScore sc (fst h) ref.
Definition corpus_scored (nbs : list (list hyp)) (refs : list str) (a : vec) (q : Q) : Prop :=
  exists hs, Forall2 (fun nb h => first_best (fun x => inner a (snd x)) nb h) nbs hs /\ q = corpusScore sc (map fst hs) refs.
Lemma update_spec c epr nIters nr ref nblist comps w nb : (0 <= c)%Q -> length nblist = length comps -> nb = combine nblist comps -> wf_list (length w) nb ->
  exists r evals, update sc c epr nIters nr ref nblist comps w = Some r /\ chosen evals r /\ nr * min nIters (epr + 2) <= length evals <= nr * nIters /\
    Forall (fun p => sent_scored nb ref (fst p) (snd p) /\ exists l, visited (ex_step c [(ref, nb)]) w l /\ is_mean (fst p) l) evals.
Proof.
  intros HC HL Enb W. unfold update, zip. rewrite HL, Nat.eqb_refl, <- Enb.
  edestruct (restarts_start (fun s g => match learn sc c ref nb s with None => None | Some s' => Some (s', g) end)
                        (fun a => match MaxTranslation a nb [] with None => None | Some t => Some (sentScore sc t ref) end) c [(ref, nb)] w (sent_scored nb ref)) as [r [new [E [R [F L]]]]].
  - intros s g l T. destruct (learn_spec c [(ref, nb)] w ref nb s l HC ltac:(now left) W T) as [s' [l' [E T']]]. rewrite E. eauto.
  - intros a La. destruct W as [W1 W2]. destruct (MaxTranslation_spec a nb [] W1) as [h [Fh Eh]]; [intros; rewrite W2; auto|]. rewrite Eh. eexists. split; [reflexivity|]. exists h. auto.
  - exists r, new. split; [exact E|]. split; [exact R|]. split; [exact L|]. eapply Forall_impl; [|exact F]. intros [a q] H. exact H.
Qed.
(** *** the closed corpus *)
Lemma zips_spec nblists : forall comps, Forall2 (fun a b => length a = length b) nblists comps -> zips nblists comps = Some (map (fun p => combine (fst p) (snd p)) (combine nblists comps)).
Proof.
  intros comps H. induction H as [|a b l l' H1 H IH]; simpl; auto. unfold zip. rewrite H1, Nat.eqb_refl, IH. auto.
Qed.
Lemma pass_corpus_spec c ex w0 is : forall s l, (0 <= c)%Q -> (forall i, In i is -> i < length ex) -> (forall ref nb, In (ref, nb) ex -> wf_list (length w0) nb) -> track c ex w0 s l ->
  exists s' l', pass_corpus sc c ex is s = Some s' /\ track c ex w0 s' l'.
Proof.
  induction is as [|i is IH]; intros s l HC HI W T; simpl; [eauto|].
  destruct (nth_error ex i) as [[ref nb]|] eqn:E.
  - destruct (learn_spec c ex w0 ref nb s l HC (nth_error_In _ _ E) (W _ _ (nth_error_In _ _ E)) T) as [s1 [l1 [E1 T1]]]. rewrite E1. apply (IH s1 l1); auto. intros; apply HI; now right.
  - apply nth_error_None in E. specialize (HI i ltac:(now left)). lia.
Qed.
Lemma max_translations_spec a nbs : forall t, (forall nb, In nb nbs -> wf_list (length a) nb) ->
  exists hs, Forall2 (fun nb h => first_best (fun x => inner a (snd x)) nb h) nbs hs /\ max_translations a nbs t = Some (map fst hs).
Proof.
  induction nbs as [|nb nbs IH]; intros t W; simpl; [exists []; split; auto|].
  destruct (W nb ltac:(now left)) as [W1 W2]. destruct (MaxTranslation_spec a nb t W1 W2) as [h [Fh Eh]]. rewrite Eh.
  destruct (IH (fst h)) as [hs [Fs Es]]; [intros; apply W; now right|]. rewrite Es. exists (h :: hs). split; auto.
Qed.
End SC.
(** ** shuffling *)
Lemma set_nth_length l : forall k x, length (set_nth l k x) = length l.
Proof. induction l as [|y l IH]; intros [|k] x; simpl; auto. Qed.
Lemma nth_set_nth l : forall k x i d, k < length l -> nth i (set_nth l k x) d = if i =? k then x else nth i l d.
Proof.
  induction l as [|y l IH]; intros [|k] x [|i] d H; simpl in *; try lia; auto. rewrite IH by lia. destruct (i =? k); auto.
Qed.
Definition swap (l : list nat) (k j : nat) : list nat := set_nth (set_nth l k (nth j l 0)) j (nth k l 0).
Lemma nth_swap l k j i : k < length l -> j < length l -> nth i (swap l k j) 0 = if i =? j then nth k l 0 else if i =? k then nth j l 0 else nth i l 0.
Proof. intros A B. unfold swap. rewrite nth_set_nth by (rewrite set_nth_length; auto). destruct (i =? j); auto. rewrite nth_set_nth by auto. auto. Qed.
Lemma swap_length l k j : length (swap l k j) = length l.
Proof. unfold swap. now rewrite !set_nth_length. Qed.
(** the permutation as a function is a bijection *)
Definition inj (l : list nat) : Prop := forall i j, i < length l -> j < length l -> nth i l 0 = nth j l 0 -> i = j.
Lemma swap_inj l k j : k < length l -> j < length l -> inj l -> inj (swap l k j).
Proof.
  intros K J H a b. rewrite swap_length. intros A B E. rewrite !nth_swap in E by auto.
  destruct (a =? j) eqn:E1; destruct (b =? j) eqn:E2; try apply Nat.eqb_eq in E1; try apply Nat.eqb_eq in E2; subst; auto.
  - destruct (b =? k) eqn:E3; [apply Nat.eqb_eq in E3; subst; apply H in E; auto|]. apply H in E; auto. apply Nat.eqb_neq in E3. congruence.
  - destruct (a =? k) eqn:E3; [apply Nat.eqb_eq in E3; subst; apply H in E; auto|]. apply H in E; auto. apply Nat.eqb_neq in E3. congruence.
  - apply Nat.eqb_neq in E1, E2. destruct (a =? k) eqn:E3; destruct (b =? k) eqn:E4; try apply Nat.eqb_eq in E3; try apply Nat.eqb_eq in E4; subst; auto.
    + apply H in E; auto. congruence.
    + apply H in E; auto. congruence.
Qed.
Lemma swap_bound l k j n : k < length l -> j < length l -> (forall i, i < length l -> nth i l 0 < n) -> forall i, i < length l -> nth i (swap l k j) 0 < n.
Proof. intros K J H i Hi. rewrite nth_swap by auto. destruct (i =? j); auto. destruct (i =? k); auto. Qed.

(** following [p] from [a] up to the first [b] *)
Inductive path (p : list nat) (b : nat) : nat -> Prop :=
| path_here : path p b b
| path_next : forall a, a <> b -> path p b (nth a p 0) -> path p b a.
Lemma orbit_shift p m : forall a, orbit p (S m) a = orbit p m (nth a p 0).
Proof. induction m as [|m IH]; intro a; simpl; auto. rewrite <- (IH a). auto. Qed.
Lemma path_orbit p b a : path p b a -> exists m, orbit p m a = b.
Proof. induction 1 as [|a H P [m E]]; [now exists 0|]. exists (S m). now rewrite orbit_shift. Qed.
(** the labels: every cycle of [p] has one position below [k] *)
Definition labelled (p : list nat) (k : nat) (R : nat -> nat) : Prop :=
  (forall i, i < length p -> R (nth i p 0) = R i) /\ (forall r, r < k -> R r = r) /\ (forall i, i < length p -> R i < k) /\ (forall i, i < length p -> path p (R i) i).
Definition perm (p : list nat) : Prop := inj p /\ forall i, i < length p -> nth i p 0 < length p.
Lemma path_swap p k j R b a : labelled p (S k) R -> perm p -> j < k -> k < length p -> a < length p -> R a = b -> b < S k -> path p b a -> path (swap p k j) b a.
Proof.
  intros [A [B [D E]]] [_ P] J K Ha Rb Hb H. revert Ha Rb. induction H as [|a Hn H IH]; intros Ha Rb; [constructor|]. apply path_next; auto.
  assert (NK : a <> k) by (intro; subst a; rewrite B in Rb; lia). assert (NJ : a <> j) by (intro; subst a; rewrite B in Rb; lia).
  rewrite nth_swap by lia. apply Nat.eqb_neq in NK, NJ. rewrite NK, NJ. apply IH; auto. rewrite A; auto.
Qed.
Lemma path_trans p c b : forall a, path p b a -> path p c b -> path p c a.
Proof. intros a H. induction H as [|a Hn H IH]; intro Q; auto. destruct (Nat.eq_dec a c) as [ -> |N]; [constructor|]. apply path_next; auto. Qed.
Lemma label_swap p k j R : labelled p (S k) R -> perm p -> j < k -> k < length p -> labelled (swap p k j) k (fun i => if R i =? k then j else R i).
Proof.
  intros LB PM J K. pose proof LB as LB'. destruct LB' as [A [B [D E]]]. pose proof PM as PM'. destruct PM' as [_ P]. unfold labelled. rewrite swap_length.
  refine (conj _ (conj _ (conj _ _))).
  - intros i Hi. rewrite nth_swap by lia. destruct (i =? j) eqn:E1; [apply Nat.eqb_eq in E1; subst i|destruct (i =? k) eqn:E2; [apply Nat.eqb_eq in E2; subst i|]].
    + rewrite A, !B by lia. rewrite Nat.eqb_refl. destruct (j =? k); auto.
    + rewrite A, !B by lia. rewrite Nat.eqb_refl. destruct (j =? k); auto.
    + now rewrite A.
  - intros r Hr. rewrite B by lia. destruct (r =? k) eqn:E1; auto. apply Nat.eqb_eq in E1. lia.
  - intros i Hi. specialize (D i Hi). destruct (R i =? k) eqn:E1; [lia|]. apply Nat.eqb_neq in E1. lia.
  - intros i Hi. destruct (R i =? k) eqn:E1.
    + apply Nat.eqb_eq in E1. apply (path_trans _ j k).
      * apply (path_swap p k j R); auto; try lia. rewrite <- E1. now apply E.
      * apply path_next; [lia|]. rewrite nth_swap by lia. replace (k =? j) with false by (symmetry; apply Nat.eqb_neq; lia). rewrite Nat.eqb_refl.
        assert (RJ : R (nth j p 0) = j) by (rewrite A, B; lia).
        apply (path_swap p k j R); auto; try lia; [apply P; lia|]. rewrite <- RJ at 1. apply E. apply P. lia.
    + apply (path_swap p k j R); auto.
Qed.
Lemma swap_perm p k j : k < length p -> j < length p -> perm p -> perm (swap p k j).
Proof. intros K J [A B]. split; [now apply swap_inj|]. rewrite swap_length. now apply swap_bound. Qed.
Lemma shuffle_spec rnd k : forall g p R, k < length p -> perm p -> labelled p (S k) R ->
  perm (fst (shuffle rnd k g p)) /\ length (fst (shuffle rnd k g p)) = length p /\ exists R', labelled (fst (shuffle rnd k g p)) 1 R'.
Proof.
  induction k as [|k IH]; intros g p R K PM LB; [simpl; eauto|]. cbn [shuffle]. set (j := rnd g mod S k). assert (J : j < S k) by (apply Nat.mod_upper_bound; lia).
  fold (swap p (S k) j). destruct (IH (S g) (swap p (S k) j) (fun i => if R i =? S k then j else R i)) as [A [B D]].
  - rewrite swap_length. lia.
  - apply swap_perm; auto; lia.
  - now apply label_swap.
  - rewrite swap_length in B. auto.
Qed.
Lemma perm_permutation p : perm p -> Permutation p (seq 0 (length p)).
Proof.
  intros [A B]. apply NoDup_Permutation_bis.
  - apply (NoDup_nth p 0). exact A.
  - rewrite seq_length. lia.
  - intros x Hx. apply (In_nth _ _ 0) in Hx. destruct Hx as [i [Hi E]]. subst x. apply in_seq. specialize (B i Hi). lia.
Qed.
Lemma sample_spec rnd g n : let p := fst (sampleWoReplacement rnd g n) in Permutation p (seq 0 n) /\ cyclic p.
Proof.
  cbv zeta. unfold sampleWoReplacement. destruct n as [|n]; [simpl; split; [constructor|]; intros i Hi; simpl in Hi; lia|].
  replace (S n - 1) with n by lia. destruct (shuffle_spec rnd n g (seq 0 (S n)) (fun i => i)) as [A [B [R [C1 [C2 [C3 C4]]]]]].
  - rewrite seq_length. lia.
  - split.
    + intros i j. rewrite seq_length. intros Hi Hj E. rewrite !seq_nth in E by auto. lia.
    + rewrite seq_length. intros i Hi. rewrite seq_nth by auto. lia.
  - unfold labelled. rewrite seq_length. refine (conj _ (conj _ (conj _ _))); intros; try lia; [rewrite seq_nth; auto|constructor].
  - rewrite seq_length in B. split; [pose proof (perm_permutation _ A) as PP; rewrite B in PP; exact PP|]. intros i Hi. specialize (C3 i Hi). specialize (C4 i Hi). replace (R i) with 0 in C4 by lia. now apply path_orbit in C4.
Qed.
Lemma cyclic_moves p : Permutation p (seq 0 (length p)) -> cyclic p -> 2 <= length p -> forall i, i < length p -> nth i p 0 <> i.
Proof.
  intros PM CY L i Hi F. assert (ND : NoDup p) by (eapply Permutation_NoDup; [symmetry; exact PM|apply seq_NoDup]).
  assert (FX : forall a, nth a p 0 = a -> forall m, orbit p m a = a) by (intros a Fa m; induction m as [|m IH]; simpl; [auto|]; rewrite IH; auto).
  destruct (Nat.eq_dec i 0) as [ -> |N].
  - destruct (CY 1 ltac:(lia)) as [m E].
    assert (X : forall m, orbit p m 1 <> 0 /\ orbit p m 1 < length p).
    { clear m E. induction m as [|m [H1 H2]]; simpl; [lia|].
      assert (Hn : nth (orbit p m 1) p 0 < length p).
      { assert (In (nth (orbit p m 1) p 0) (seq 0 (length p))) by (eapply Permutation_in; [exact PM|]; apply nth_In; auto). apply in_seq in H. lia. }
      split; auto. intro E. apply H1. apply (proj1 (NoDup_nth p 0) ND); auto. congruence. }
    now apply (X m) in E.
  - destruct (CY i Hi) as [m E]. rewrite FX in E by auto. congruence.
Qed.

Section SC2.
Variable sc : scorer.
Lemma corpus_update_spec rnd c epr nIters nr refs nblists comps w nbs : (0 <= c)%Q -> length nblists = length refs -> Forall2 (fun a b => length a = length b) nblists comps ->
  nbs = map (fun p => combine (fst p) (snd p)) (combine nblists comps) -> (forall nb, In nb nbs -> wf_list (length w) nb) ->
  exists r evals, updateClosedCorpus sc rnd c epr nIters nr refs nblists comps w = Some r /\ chosen evals r /\ nr * min nIters (epr + 2) <= length evals <= nr * nIters /\
    Forall (fun p => corpus_scored sc nbs refs (fst p) (snd p) /\ exists l, visited (ex_step sc c (combine refs nbs)) w l /\ is_mean (fst p) l) evals.
Proof.
  intros HC HL F2 En W. unfold updateClosedCorpus. rewrite HL, Nat.eqb_refl. simpl negb. rewrite (zips_spec _ _ F2), <- En.
  assert (Ln : length nbs = length refs).
  { rewrite En, map_length, combine_length. assert (LC : length nblists = length comps) by (clear - F2; induction F2; simpl; congruence). rewrite <- LC, Nat.min_id. exact HL. }
  edestruct (restarts_start sc (fun s g => let (is, g') := sampleWoReplacement rnd g (length refs) in match pass_corpus sc c (combine refs nbs) is s with None => None | Some s' => Some (s', g') end)
               (fun a => match max_translations a nbs [] with None => None | Some ts => Some (corpusScore sc ts refs) end) c (combine refs nbs) w (corpus_scored sc nbs refs)) as [r [new [E [R [F L]]]]].
  - intros s g l T. destruct (sampleWoReplacement rnd g (length refs)) as [is g'] eqn:ES. pose proof (sample_spec rnd g (length refs)) as [P _]. rewrite ES in P. cbn [fst] in P.
    destruct (pass_corpus_spec sc c (combine refs nbs) w is s l HC) as [s' [l' [E T']]]; auto.
    + intros i Hi. rewrite combine_length, Ln, Nat.min_id. apply (Permutation_in _ P) in Hi. apply in_seq in Hi. lia.
    + intros ref nb Hin. apply W. eapply in_combine_r. exact Hin.
    + rewrite E. eauto.
  - intros a La. destruct (max_translations_spec a nbs []) as [hs [Fs Es]]; [rewrite La; exact W|]. rewrite Es. eexists. split; [reflexivity|]. exists hs. auto.
  - exists r, new. split; [exact E|]. split; [exact R|]. split; [exact L|]. eapply Forall_impl; [|exact F]. intros [a q] H. exact H.
Qed.
End SC2.
