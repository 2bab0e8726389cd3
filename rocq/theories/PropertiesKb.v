(** C124-C126: k-best batch MIRA (stack_dec/KbMiraLlWu.cc). *)
From Coq Require Import Ascii String Arith ZArith QArith Qminmax List Bool Lia Lqa Permutation.
From Verif Require Import TextSpec KbSpec KbModel KbProofs KbRun.
Import ListNotations.
Local Open Scope nat_scope.

(** ** C124: the tuned weights *)
(** lists as tuning needs them: not empty, a feature for every weight *)
Definition good_list (n : nat) (nb : list hyp) : Prop := nb <> [] /\ forall h, In h nb -> length (snd h) = n.
Theorem C124_update : forall (sc : scorer) (c : Q) (epochsToRestart nIters maxRestarts : nat) (ref : str) (nb : list hyp) (w : vec),
  (0 <= c)%Q -> good_list (length w) nb ->
  exists r evals,
    update sc c epochsToRestart nIters maxRestarts ref (map fst nb) (map snd nb) w = Some r /\ chosen evals r /\
    maxRestarts * min nIters (epochsToRestart + 2) <= length evals <= maxRestarts * nIters /\
    forall a p, In (a, p) evals ->
      (exists h, first_best (fun x => inner a (snd x)) nb h /\ p = sentScore sc (fst h) ref) /\
      (exists l, visited (fun u u' => exists bg, kb_step c nb (fun h => fst (sentBackgroundScore sc bg (fst h) ref)) u u') w l /\ is_mean a l).
Proof.
  intros sc c epr nIters nr ref nb w HC W.
  assert (EC : nb = combine (map fst nb) (map snd nb)) by (clear; induction nb as [|[a b] nb IH]; simpl; [reflexivity|f_equal; exact IH]).
  destruct (update_spec sc c epr nIters nr ref (map fst nb) (map snd nb) w nb HC) as [r [evals [E [R [L F]]]]]; auto; [now rewrite !map_length|].
  exists r, evals. split; [exact E|]. split; [exact R|]. split; [exact L|]. intros a p H. rewrite Forall_forall in F. destruct (F _ H) as [F1 [l [V M]]].
  split; [exact F1|]. exists l. split; [|exact M]. clear - V. induction V as [|u l u' V IH [rf [nb' [bg [Hin St]]]]]; [constructor|]. apply vis_step; auto.
  destruct Hin as [H|[]]. inversion H. subst. exists bg. exact St.
Qed.
Print Assumptions C124_update.
Theorem C124_corpus : forall (sc : scorer) (rnd : nat -> nat) (c : Q) (epochsToRestart nIters maxRestarts : nat) (ex : list (str * list hyp)) (w : vec),
  (0 <= c)%Q -> (forall ref nb, In (ref, nb) ex -> good_list (length w) nb) ->
  exists r evals,
    updateClosedCorpus sc rnd c epochsToRestart nIters maxRestarts (map fst ex) (map (fun e => map fst (snd e)) ex) (map (fun e => map snd (snd e)) ex) w = Some r /\ chosen evals r /\
    maxRestarts * min nIters (epochsToRestart + 2) <= length evals <= maxRestarts * nIters /\
    forall a p, In (a, p) evals ->
      (exists hs, Forall2 (fun e h => first_best (fun x => inner a (snd x)) (snd e) h) ex hs /\ p = corpusScore sc (map fst hs) (map fst ex)) /\
      (exists l, visited (fun u u' => exists ref nb bg, In (ref, nb) ex /\ kb_step c nb (fun h => fst (sentBackgroundScore sc bg (fst h) ref)) u u') w l /\ is_mean a l).
Proof.
  intros sc rnd c epr nIters nr ex w HC W.
  assert (EC : forall nb : list hyp, combine (map fst nb) (map snd nb) = nb) by (induction nb as [|[a b] nb IH]; simpl; [reflexivity|f_equal; exact IH]).
  assert (EN : map (fun p => combine (fst p) (snd p)) (combine (map (fun e : str * list hyp => map fst (snd e)) ex) (map (fun e : str * list hyp => map snd (snd e)) ex)) = map snd ex).
  { clear - EC. induction ex as [|[a b] ex IH]; simpl; [reflexivity|]. f_equal; [apply EC|exact IH]. }
  assert (EX : combine (map fst ex) (map snd ex) = ex) by (clear; induction ex as [|[a b] ex IH]; simpl; [reflexivity|f_equal; exact IH]).
  destruct (corpus_update_spec sc rnd c epr nIters nr (map fst ex) (map (fun e => map fst (snd e)) ex) (map (fun e => map snd (snd e)) ex) w (map snd ex) HC) as [r [evals [E [R [L F]]]]].
  - now rewrite !map_length.
  - clear. induction ex as [|e ex IH]; simpl; constructor; auto. now rewrite !map_length.
  - symmetry. exact EN.
  - intros nb H. apply in_map_iff in H. destruct H as [[rf nb'] [H1 H2]]. simpl in H1. subst. apply (W rf nb H2).
  - exists r, evals. split; [exact E|]. split; [exact R|]. split; [exact L|]. intros a p H. rewrite Forall_forall in F. destruct (F _ H) as [[hs [F1 F2]] [l [V M]]].
    assert (V' : visited (ex_step sc c ex) w l) by (rewrite <- EX; exact V). clear V. rename V' into V.
    split; [|exists l; auto]. exists hs. split; auto. clear - F1. cbn [fst] in F1. revert hs F1. induction ex as [|e ex IH]; intros hs F1; simpl in F1; inversion F1; subst; constructor; auto.
Qed.
Print Assumptions C124_corpus.
(** a step gives the weights that minimize the objective, and no other does *)
Theorem C124_step_unique : forall C w delta d w1 w2,
  length w1 = length w -> length w2 = length w ->
  (forall v, length v = length w -> objective C w delta d w1 + (1 # 2) * sq (minus_v v w1) <= objective C w delta d v)%Q ->
  (objective C w delta d w2 <= objective C w delta d w1)%Q ->
  forall k, (nth k w2 0 == nth k w1 0)%Q.
Proof.
  intros C w delta d w1 w2 L1 L2 M LE. specialize (M w2 L2). assert (Z : (sq (minus_v w2 w1) == 0)%Q) by (pose proof (sq_nonneg (minus_v w2 w1)); lra).
  assert (LL : length w2 = length w1) by congruence. clear - Z LL. revert w1 LL Z. induction w2 as [|x w2 IH]; intros [|y w1] LL Z k; simpl in LL; try discriminate; [destruct k; simpl; lra|].
  unfold sq in Z. simpl in Z. pose proof (sq_nonneg (minus_v w2 w1)) as P. unfold sq in P.
  assert (G : forall z : Q, (0 <= z * z)%Q) by (intro; nra). pose proof (G (x - y)%Q). assert (Z1 : ((x - y) * (x - y) == 0)%Q) by lra.
  destruct k as [|k]; simpl; [|apply IH; [congruence|unfold sq; lra]].
  apply Qmult_integral in Z1. destruct Z1; lra.
Qed.
Print Assumptions C124_step_unique.
(** when no evaluated weights have a positive quality (no restarts, or an error rate as a negative quality) the weights are lost *)
Theorem C124_weights_refuted :
  (forall sc c e n ref nbl comps w, length nbl = length comps -> update sc c e n 0 ref nbl comps w = Some []) /\
  (forall sc c e n m ref nb w r, (0 <= c)%Q -> good_list (length w) nb -> (forall t, (sentScore sc t ref <= 0)%Q) -> update sc c e n m ref (map fst nb) (map snd nb) w = Some r -> r = []).
Proof.
  split.
  - intros sc c e n ref nbl comps w H. unfold update, zip. rewrite H, Nat.eqb_refl. auto.
  - intros sc c e n m ref nb w r HC W NP E. destruct (C124_update sc c e n m ref nb w HC W) as [r' [evals [E' [[[p [H1 [H2 _]]]|[H1 _]] [_ F]]]]]; rewrite E' in E; injection E as E; subst r'; auto.
    destruct (F _ _ H1) as [[h [_ Ep]] _]. specialize (NP (fst h)). rewrite Ep in H2. lra.
Qed.
Print Assumptions C124_weights_refuted.

(** ** C125: hypotheses *)
Theorem C125_best : forall (wv : vec) (nb : list hyp) (t : str), good_list (length wv) nb ->
  exists h, first_best (fun x => inner wv (snd x)) nb h /\ MaxTranslation wv nb t = Some (fst h).
Proof. intros wv nb t [A B]. apply MaxTranslation_spec; auto. Qed.
Print Assumptions C125_best.
Theorem C125_hope_fear : forall (sc : scorer) (bg : bgst sc) (ref : str) (wv : vec) (nb : list hyp), good_list (length wv) nb ->
  exists r h f, hf_loop sc bg ref nb wv None = Some (Some r) /\
    first_best (fun x => inner wv (snd x) + fst (sentBackgroundScore sc bg (fst x) ref))%Q nb h /\ first_best (fun x => inner wv (snd x) - fst (sentBackgroundScore sc bg (fst x) ref))%Q nb f /\
    hopeF r = snd h /\ (hopeQ r, hopeStats r) = sentBackgroundScore sc bg (fst h) ref /\ fearF r = snd f /\ fearQ r = fst (sentBackgroundScore sc bg (fst f) ref) /\
    (fearQ r <= hopeQ r)%Q.
Proof.
  intros sc bg ref wv nb [A B]. destruct (HopeFear_spec sc bg ref wv nb A B) as [r [E [h [f [H1 [H2 [H3 [H4 [H5 [H6 [H7 [H8 H9]]]]]]]]]]]].
  exists r, h, f. split; auto. split; [exact H1|]. split; [exact H2|]. split; auto. split; [rewrite H4, H5; unfold qual; symmetry; apply surjective_pairing|]. split; auto. split; [exact H8|].
  rewrite H4, H8. apply first_best_best in H1, H2. pose proof (proj2 H1 f (proj1 H2)) as G1. pose proof (proj2 H2 h (proj1 H1)) as G2. unfold hopes, fears in *. lra.
Qed.
Print Assumptions C125_hope_fear.

(** ** C126: the order of the examples *)
Theorem C126_order : forall (rnd : nat -> nat) (g n : nat), let p := fst (sampleWoReplacement rnd g n) in Permutation p (seq 0 n) /\ cyclic p.
Proof. exact sample_spec. Qed.
Print Assumptions C126_order.
(** not every order can come up: an example never keeps its position *)
Theorem C126_moves_refuted : forall (rnd : nat -> nat) (g n i : nat), 2 <= n -> i < n -> nth i (fst (sampleWoReplacement rnd g n)) 0 <> i.
Proof.
  intros rnd g n i Hn Hi. destruct (sample_spec rnd g n) as [P CY]. assert (L : length (fst (sampleWoReplacement rnd g n)) = n) by (rewrite (Permutation_length P); apply seq_length).
  apply cyclic_moves; rewrite ?L; auto.
Qed.
Print Assumptions C126_moves_refuted.

(** ** concrete cases *)
Definition ex_sc : scorer := mkscorer nat 0 (fun bg t ref => (if list_eq_dec ascii_dec t ref then 1%Q else 0%Q, [bg])) (fun bg st => bg + 1) (fun t ref => if list_eq_dec ascii_dec t ref then 1%Q else 0%Q)
  (fun ts refs => if list_eq_dec (list_eq_dec ascii_dec) ts refs then 1%Q else 0%Q).
Definition ex_nb : list hyp := [(["b"%char], [1%Q; 0%Q]); (["a"%char], [0%Q; 1%Q])].
Example C124_nonvacuous : good_list (length [(1 # 2)%Q; 0%Q]) ex_nb /\
  exists r, update ex_sc 1 3 4 1 ["a"%char] (map fst ex_nb) (map snd ex_nb) [(1 # 2)%Q; 0%Q] = Some r /\ map Qred r = [(1 # 8)%Q; (3 # 8)%Q].
Proof.
  split; [split; [discriminate|]; intros h [ <- |[ <- |[]]]; reflexivity|]. eexists. split; [vm_compute; reflexivity|vm_compute; reflexivity].
Qed.
Example C125_nonvacuous : good_list 2 ex_nb /\ MaxTranslation [0%Q; 1%Q] ex_nb [] = Some ["a"%char] /\
  exists r, hf_loop ex_sc 0 ["a"%char] ex_nb [0%Q; 0%Q] None = Some (Some r) /\ hopeF r = [0%Q; 1%Q] /\ fearF r = [1%Q; 0%Q].
Proof.
  split; [split; [discriminate|]; intros h [ <- |[ <- |[]]]; reflexivity|]. split; [reflexivity|]. eexists. split; [vm_compute; reflexivity|]. split; reflexivity.
Qed.
Example C126_nonvacuous : fst (sampleWoReplacement (fun g => g + 5) 0 4) = [1; 3; 0; 2].
Proof. vm_compute. reflexivity. Qed.
