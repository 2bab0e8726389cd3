(** The general text matcher covers a maximal matching of equal words. *)
From Coq Require Import Ascii String Arith ZArith QArith List Bool Lia Permutation Sorted.
From Verif Require Import TextSpec TextModel VocabSpec BleuSpec BleuModel BleuProofs EvalSpec EvalModel EvalProofs.
Import ListNotations.
Local Open Scope nat_scope.
Definition wat (s : list str) (c : list nat) : list str := map (fun i => nth i s []) c.
Lemma inserts_perm : forall l s, NoDup l -> (forall i, In i l -> ~ In i s) -> Permutation (inserts l s) (l ++ s).
Proof.
  induction l as [|i l IH]; intros s N H; [apply Permutation_refl|]. cbn [inserts app]. inversion N as [|? ? NI N']; subst. destruct (in_dec Nat.eq_dec i s) as [Y|_]; [exfalso; apply (H i); [now left|exact Y]|].
  eapply Permutation_trans; [apply IH; [exact N'|]|apply Permutation_sym, Permutation_middle]. intros j J [<-|Y]; [contradiction|]. apply (H j); [now right|exact Y].
Qed.
Lemma inter_true : forall a b s, doIntersect a b s = true <-> exists i, a <= i <= b /\ In i s.
Proof.
  intros a b s. unfold doIntersect. rewrite existsb_exists. split.
  - intros (i & I1 & I2). apply in_seq in I1. destruct (in_dec Nat.eq_dec i s); [|discriminate]. exists i. split; [lia|assumption].
  - intros (i & I1 & I2). exists i. split; [apply in_seq; lia|]. now destruct (in_dec Nat.eq_dec i s).
Qed.
Lemma inter_false : forall a b s, doIntersect a b s = false -> forall i, In i (seq a (S b - a)) -> ~ In i s.
Proof. intros a b s H i I1 I2. assert (X : doIntersect a b s = true) by (apply inter_true; exists i; apply in_seq in I1; split; [lia|exact I2]). congruence. Qed.
Definition cinv (s1 s2 : list str) (m : nat) (cc rc : list nat) : Prop :=
  NoDup cc /\ NoDup rc /\ (forall i, In i cc -> i < length s1) /\ (forall i, In i rc -> i < length s2) /\ m = length cc /\ Permutation (wat s1 cc) (wat s2 rc).
Lemma nodup_app2 : forall (a b : list nat), NoDup a -> NoDup b -> (forall x, In x a -> ~ In x b) -> NoDup (a ++ b).
Proof. induction a as [|x a IH]; intros b NA NB H; [exact NB|]. inversion NA; subst. cbn [app]. constructor; [|apply IH; [assumption|exact NB|intros y Y; apply H; now right]]. intros Y. apply in_app_or in Y as [Y|Y]; [contradiction|]. apply (H x); [now left|exact Y]. Qed.
Lemma cover_ok : forall s1 s2 ngs m cc rc, Forall (gok s1 s2) ngs -> cinv s1 s2 m cc rc ->
  exists cc' rc', cinv s1 s2 (gtm_cover ngs m cc rc) cc' rc' /\ incl cc cc' /\ incl rc rc' /\
    forall g, In g ngs -> (exists i, g_c1 g <= i <= g_c2 g /\ In i cc') \/ (exists i, g_r1 g <= i <= g_r2 g /\ In i rc').
Proof.
  intros s1 s2. induction ngs as [|g ngs IH]; intros m cc rc F I0; [exists cc, rc; repeat split; try apply I0; try apply incl_refl; intros g []|]. inversion F as [|? ? G F']; subst. cbn [gtm_cover].
  destruct (doIntersect (g_c1 g) (g_c2 g) cc) eqn:D1; cbn [negb andb].
  - destruct (IH _ _ _ F' I0) as (cc' & rc' & P1 & P2 & P3 & P4). exists cc', rc'. repeat (split; [assumption|]). intros g' [<-|G']; [|now apply P4]. left. apply inter_true in D1 as (i & A & B). exists i. auto.
  - destruct (doIntersect (g_r1 g) (g_r2 g) rc) eqn:D2; cbn [negb].
    + destruct (IH _ _ _ F' I0) as (cc' & rc' & P1 & P2 & P3 & P4). exists cc', rc'. repeat (split; [assumption|]). intros g' [<-|G']; [|now apply P4]. right. apply inter_true in D2 as (i & A & B). exists i. auto.
    + pose proof (inter_false _ _ _ D1) as N1. pose proof (inter_false _ _ _ D2) as N2. destruct G as (S1 & S2 & S3 & E1 & E2 & L1 & L2 & W). replace (S (g_c2 g) - g_c1 g) with (g_sz g) in * by lia. replace (S (g_r2 g) - g_r1 g) with (g_sz g) in * by lia.
      pose proof (inserts_perm _ _ (seq_NoDup (g_sz g) (g_c1 g)) N1) as Q1. pose proof (inserts_perm _ _ (seq_NoDup (g_sz g) (g_r1 g)) N2) as Q2. destruct I0 as (U1 & U2 & B1 & B2 & LM & PW).
      destruct (IH (m + g_sz g) (inserts (seq (g_c1 g) (g_sz g)) cc) (inserts (seq (g_r1 g) (g_sz g)) rc) F') as (cc' & rc' & P1 & P2 & P3 & P4).
      { split; [eapply Permutation_NoDup; [apply Permutation_sym, Q1|]; apply nodup_app2; [apply seq_NoDup|exact U1|exact N1]|].
        split; [eapply Permutation_NoDup; [apply Permutation_sym, Q2|]; apply nodup_app2; [apply seq_NoDup|exact U2|exact N2]|].
        split; [intros i J; apply (Permutation_in _ Q1) in J; apply in_app_or in J as [J|J]; [apply in_seq in J; unfold str in *; lia|now apply B1]|].
        split; [intros i J; apply (Permutation_in _ Q2) in J; apply in_app_or in J as [J|J]; [apply in_seq in J; unfold str in *; lia|now apply B2]|].
        split; [rewrite (Permutation_length Q1), app_length, seq_length; lia|].
        unfold wat in *. eapply Permutation_trans; [apply Permutation_map, Q1|]. eapply Permutation_trans; [|apply Permutation_map, Permutation_sym, Q2]. rewrite !map_app. apply Permutation_app; [|exact PW].
        assert (EQ : map (fun i => nth i s1 []) (seq (g_c1 g) (g_sz g)) = map (fun i => nth i s2 []) (seq (g_r1 g) (g_sz g))).
        { clear - W. remember (g_c1 g) as a. remember (g_r1 g) as b. clear Heqa Heqb. revert a b W. induction (g_sz g) as [|n IH]; intros a b W; [reflexivity|]. cbn [seq map]. f_equal; [specialize (W 0 ltac:(lia)); rewrite !Nat.add_0_r in W; exact W|]. apply IH. intros k K. specialize (W (S k) ltac:(lia)). rewrite !Nat.add_succ_r in W. exact W. }
        rewrite EQ. apply Permutation_refl. }
      exists cc', rc'. split; [exact P1|]. assert (X1 : incl cc cc') by (intros i J; apply P2; apply (Permutation_in _ (Permutation_sym Q1)), in_or_app; now right). assert (X2 : incl rc rc') by (intros i J; apply P3; apply (Permutation_in _ (Permutation_sym Q2)), in_or_app; now right). split; [exact X1|]. split; [exact X2|].
      intros g' [<-|G']; [|now apply P4]. left. exists (g_c1 g). split; [lia|]. apply P2. apply (Permutation_in _ (Permutation_sym Q1)), in_or_app. left. apply in_seq. lia.
Qed.
Notation occ := (occ ascii_dec). 
Lemma occ_perm : forall w (a b : list str), Permutation a b -> occ w a = occ w b.
Proof. intros w a b P. unfold BleuSpec.occ. induction P as [|x a b P IH|x y a|a b c P1 IH1 P2 IH2]; cbn [count_occ]; [reflexivity|destruct (geqd ascii_dec x w); now rewrite IH|destruct (geqd ascii_dec x w), (geqd ascii_dec y w); reflexivity|now rewrite IH1]. Qed.
Lemma wat_all : forall s : list str, wat s (seq 0 (length s)) = s.
Proof. unfold wat. induction s as [|x s IH]; [reflexivity|]. cbn [length seq map nth]. f_equal. rewrite <- seq_shift, map_map. exact IH. Qed.
Lemma cover_le : forall (s : list str) c, NoDup c -> (forall i, In i c -> i < length s) -> forall w, occ w (wat s c) <= occ w s /\ ((forall i, i < length s -> nth i s [] = w -> In i c) -> occ w (wat s c) = occ w s).
Proof.
  intros s c ND LT w. set (r := filter (fun i => if in_dec Nat.eq_dec i c then false else true) (seq 0 (length s))).
  assert (P : Permutation (seq 0 (length s)) (c ++ r)).
  { apply NoDup_Permutation; [apply seq_NoDup|apply nodup_app2; [exact ND|apply NoDup_filter, seq_NoDup|]|].
    - intros x X Y. apply filter_In in Y as [_ Y]. destruct (in_dec Nat.eq_dec x c); [discriminate|contradiction].
    - intros x. rewrite in_app_iff. unfold r. rewrite filter_In, in_seq. specialize (LT x). destruct (in_dec Nat.eq_dec x c) as [Y|N]; [split; intros _; [now left|split; [lia|now apply LT]]|split; [intros H; right; split; [exact H|reflexivity]|intros [H|[H _]]; [contradiction|exact H]]]. }
  assert (E : occ w s = occ w (wat s c) + occ w (wat s r)).
  { rewrite <- (wat_all s) at 1. unfold wat in *. rewrite (occ_perm _ _ _ (Permutation_map _ P)), map_app. apply (occ_app ascii ascii_dec). }
  split; [lia|]. intros H. assert (Z : occ w (wat s r) = 0); [|lia]. unfold BleuSpec.occ. apply count_occ_not_In. intros X. apply in_map_iff in X as (i & E2 & X). unfold r in X. apply filter_In in X as [X Y]. apply in_seq in X. destruct (in_dec Nat.eq_dec i c); [discriminate|]. apply n. apply H; [lia|exact E2].
Qed.
Theorem gtm_matches : forall s1 s2 st, gtm_stats s1 s2 st -> st = (shared s1 s2, length s1, length s2).
Proof.
  intros s1 s2 st (ngs & [P _] & ->). do 2 f_equal. destruct (gtm_rows_ok s1 s2 s1 0 [] eq_refl eq_refl) as [G A]; [intros [|k] q E; discriminate|cbn; lia|].
  assert (G' : Forall (gok s1 s2) ngs) by (rewrite Forall_forall in *; intros g J; apply G; eapply Permutation_in; [apply Permutation_sym, P|exact J]).
  destruct (cover_ok s1 s2 ngs 0 [] [] G') as (cc & rc & (U1 & U2 & B1 & B2 & LM & PW) & _ & _ & C); [repeat split; try constructor; intros i []|]. rewrite LM.
  unfold shared, common. transitivity (length (wat s1 cc)); [unfold wat; now rewrite map_length|]. transitivity (sum (map (fun g => occ g (wat s1 cc)) (nodup (geqd ascii_dec) s1))); [symmetry; apply (sum_occ ascii ascii_dec)|].
  1: apply NoDup_nodup.
  1: intros w W; apply nodup_In; unfold wat in W; apply in_map_iff in W as (i & <- & W); apply nth_In; now apply B1.
  apply (sum_ext ascii). intros w _. destruct (cover_le s1 cc U1 B1 w) as [L1 E1]. destruct (cover_le s2 rc U2 B2 w) as [L2 E2]. rewrite <- (occ_perm w _ _ PW) in L2, E2.
    destruct (find (fun i => (if str_dec (nth i s1 []) w then true else false) && (if in_dec Nat.eq_dec i cc then false else true)) (seq 0 (length s1))) as [i|] eqn:FD.
    - apply find_some in FD as [X Y]. apply in_seq in X. destruct (str_dec (nth i s1 []) w) as [EW|]; [|discriminate]. destruct (in_dec Nat.eq_dec i cc) as [|NI]; [discriminate|]. rewrite E2; [rewrite E2 in L1; [symmetry; apply Nat.min_r; exact L1|]|].
      all: intros j J EJ; assert (X2 : In (mkngm 1 i i j j) ngs) by (eapply Permutation_in; [exact P|]; apply A; [split; [lia|apply X]|exact J|transitivity w; [exact EW|symmetry; exact EJ]]); apply C in X2 as [(k & K1 & K2)|(k & K1 & K2)]; cbn [g_c1 g_c2 g_r1 g_r2] in K1; [replace k with i in K2 by lia; contradiction|now replace j with k by lia].
    - rewrite E1; [rewrite E1 in L2; [symmetry; apply Nat.min_l; exact L2|]|].
      all: intros j J EJ; destruct (in_dec Nat.eq_dec j cc) as [Y|NI]; [exact Y|]; exfalso; assert (X2 : In j (seq 0 (length s1))) by (apply in_seq; split; [lia|exact J]); apply (find_none _ _ FD) in X2; destruct (str_dec (nth j s1 []) w) as [_|N]; [|now apply N]; destruct (in_dec Nat.eq_dec j cc); [contradiction|discriminate].
Qed.
