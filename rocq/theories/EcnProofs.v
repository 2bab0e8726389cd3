From Coq Require Import Ascii String Arith ZArith List Bool Lia Sorted Permutation.
From Verif Require Import EditDistSpec EditDistModel EditDistProofs TextSpec TextModel EcSpec EcModel EcProofs EcwSpec EcwModel EcwProofs EcwGraph EcwInv EcwRun EcnSpec EcnModel.
Import ListNotations.
Open Scope Z_scope.

(** ** bounded multimaps *)
Section MM.
Context {A : Type}.
Implicit Types t l cs : list (Z * A).
Lemma mm_perm : forall s (v : A) t, Permutation (mm_insert s v t) ((s, v) :: t).
Proof. intros s v t. induction t as [|p t IH]; cbn [mm_insert]; [auto|]. destruct (fst p <? s); [auto|]. rewrite IH. apply perm_swap. Qed.
Lemma mm_sorted : forall s (v : A) t, descending t -> descending (mm_insert s v t).
Proof.
  intros s v t H. induction H as [|p t H IH F]; cbn [mm_insert]; [repeat constructor|]. destruct (Z.ltb_spec (fst p) s).
  - constructor; [constructor; auto|]. constructor; [cbn; lia|]. eapply Forall_impl; [|exact F]. cbn. intros; lia.
  - constructor; auto. eapply Permutation_Forall; [symmetry; apply mm_perm|]. constructor; auto.
Qed.
Lemma mm_len : forall s (v : A) t, length (mm_insert s v t) = S (length t).
Proof. intros. rewrite (Permutation_length (mm_perm s v t)). reflexivity. Qed.
Lemma mm_firstn : forall s (v : A) t n, firstn n (mm_insert s v (firstn n t)) = firstn n (mm_insert s v t).
Proof.
  intros s v t. induction t as [|p t IH]; intros [|n]; try reflexivity. cbn [firstn mm_insert]. destruct (fst p <? s).
  - change (p :: firstn n t) with (firstn (S n) (p :: t)). cbn [firstn]. f_equal. change (p :: firstn n t) with (firstn (S n) (p :: t)). rewrite firstn_firstn. f_equal. lia.
  - cbn [firstn]. f_equal. apply IH.
Qed.
Definition isort cs := fold_left (fun t c => mm_insert (fst c) (snd c) t) cs.
Lemma isort_perm : forall cs t, Permutation (isort cs t) (t ++ cs).
Proof.
  intros cs. induction cs as [|[s v] cs IH]; intro t; cbn [isort fold_left]; [now rewrite app_nil_r|]. fold (isort cs (mm_insert s v t)). rewrite IH. cbn [fst snd].
  rewrite mm_perm. cbn [app]. apply Permutation_middle.
Qed.
Lemma isort_sorted : forall cs t, descending t -> descending (isort cs t).
Proof. intros cs. induction cs as [|[s v] cs IH]; intros t H; cbn [isort fold_left]; auto. apply IH. now apply mm_sorted. Qed.
Lemma nb_all_ok : forall n cs t, (0 < n)%nat -> nb_all n cs (Some (firstn n t)) = Some (firstn n (isort cs t)).
Proof.
  intros n cs. induction cs as [|[s v] cs IH]; intros t N; [reflexivity|]. cbn [nb_all isort fold_left]. fold (nb_all n cs).
  enough (E : nb_add n (Some (firstn n t)) (s, v) = Some (firstn n (mm_insert s v t))) by (rewrite E; apply IH; auto).
  cbn [nb_add fst snd]. rewrite <- mm_firstn. set (t' := mm_insert s v (firstn n t)).
  assert (L : (length t' <= S n)%nat) by (unfold t'; rewrite mm_len, firstn_length; lia).
  destruct (Nat.ltb_spec n (length t')).
  - assert (L2 : length t' = S n) by lia. destruct t' as [|a [|b t']]; [discriminate|simpl in L2; lia|]. unfold removeLastFrom. f_equal. rewrite removelast_firstn1, L2. f_equal. lia.
  - f_equal. symmetry. apply firstn_all2. lia.
Qed.
Lemma firstn_n_best : forall n cs l, descending l -> Permutation l cs -> n_best n cs (firstn n l).
Proof.
  intros n cs l S P. split; [|split].
  - clear P. revert l S. induction n as [|n IH]; intros l S; [constructor|]. destruct S as [|a l S F]; [constructor|]. cbn. constructor; [apply IH; auto|].
    rewrite Forall_forall in *. intros x Hx. apply F. rewrite <- (firstn_skipn n l). apply in_or_app. auto.
  - rewrite firstn_length, (Permutation_length P). reflexivity.
  - exists (skipn n l). split; [rewrite firstn_skipn; now symmetry|]. clear P. revert n. induction S as [|a l S IH F]; intros [|n] x y Hx Hy; cbn in Hx, Hy; try contradiction.
    destruct Hx as [->|Hx]; [|eapply IH; eauto]. rewrite Forall_forall in F. apply F. rewrite <- (firstn_skipn n l). apply in_or_app. auto.
Qed.
Lemma nb_all_best : forall n cs, (0 < n)%nat -> exists res, nb_all n cs (Some []) = Some res /\ n_best n cs res.
Proof.
  intros n cs N. exists (firstn n (isort cs [])). split.
  - rewrite <- nb_all_ok by auto. now rewrite firstn_nil.
  - apply firstn_n_best; [apply isort_sorted; constructor|apply isort_perm].
Qed.
Lemma n_best_in : forall n cs res c, n_best n cs res -> In c res -> In c cs.
Proof. intros n cs res c (_ & _ & d & P & _) H. eapply Permutation_in; [symmetry; exact P|]. apply in_or_app. auto. Qed.
Lemma filter_perm : forall (f : Z * A -> bool) l l', Permutation l l' -> length (filter f l) = length (filter f l').
Proof. intros f l l' P. induction P; cbn; auto; repeat match goal with |- context [if f ?x then _ else _] => destruct (f x) end; cbn; congruence. Qed.
Lemma filter_le : forall (f : Z * A -> bool) l, (length (filter f l) <= length l)%nat.
Proof. intros f l. induction l as [|a l IH]; cbn; [lia|]. destruct (f a); cbn; lia. Qed.
Lemma filter_lt : forall (f : Z * A -> bool) l x, In x l -> f x = false -> (length (filter f l) < length l)%nat.
Proof. intros f l x. induction l as [|a l IH]; cbn; [tauto|]. intros [->|H] F; [rewrite F; pose proof (filter_le f l); lia|]. specialize (IH H F). destruct (f a); cbn; lia. Qed.
(** if at least [n] candidates reach the score [z] then the whole list does *)
Lemma n_best_full : forall n cs res z, n_best n cs res -> (n <= length (filter (fun c => (z <=? fst c)%Z) cs))%nat -> length res = n /\ forall c, In c res -> z <= fst c.
Proof.
  intros n cs res z (S & L & d & P & B) H. pose proof (filter_le (fun c => (z <=? fst c)%Z) cs). split; [lia|]. intros c Hc. destruct (Z.le_gt_cases z (fst c)) as [?|LT]; auto. exfalso.
  rewrite (filter_perm _ _ _ P), filter_app, app_length in H.
  assert (E : filter (fun c => (z <=? fst c)%Z) d = []).
  { clear - B Hc LT. induction d as [|x d IH]; [reflexivity|]. cbn. pose proof (B c x Hc (or_introl eq_refl)). destruct (Z.leb_spec z (fst x)); [lia|]. apply IH. intros a b Ha Hb. apply B; auto. right. auto. }
  rewrite E in H. cbn in H. pose proof (filter_lt (fun c => (z <=? fst c)%Z) res c Hc ltac:(apply Z.leb_gt; lia)). lia.
Qed.
Lemma n_best_or : forall n cs res c, n_best n cs res -> In c cs -> In c res \/ (length res = n /\ forall c', In c' res -> fst c <= fst c').
Proof.
  intros n cs res c (S & L & d & P & B) H. apply (Permutation_in c P) in H. apply in_app_or in H. destruct H as [H|H]; [auto|]. right. split; [|intros; eapply B; eauto].
  pose proof (Permutation_length P) as PL. rewrite app_length in PL. destruct d; [contradiction|]. cbn in PL. lia.
Qed.
End MM.

(** candidates kept in two stages *)
Lemma n_best_stage : forall A B n (cs hs : list (Z * A)) (R : A -> B -> Prop) (l1 l2 : list (Z * B)) res (c : Z * A),
  n_best n cs hs -> Forall2 (fun x y => fst x = fst y /\ R (snd x) (snd y)) hs l1 -> n_best n (l1 ++ l2) res \/ n_best n (l2 ++ l1) res -> In c cs ->
  (exists r, R (snd c) r /\ In (fst c, r) res) \/ (length res = n /\ forall c', In c' res -> fst c <= fst c').
Proof.
  intros A B n cs hs R l1 l2 res c NB F NR Hc. destruct (n_best_or _ _ _ _ NB Hc) as [Hh|[LH GE]].
  - assert (X : exists y, In y l1 /\ fst c = fst y /\ R (snd c) (snd y)).
    { clear - F Hh. induction F as [|x y hs l1 H F IH]; [contradiction|]. destruct Hh as [->|Hh]; [exists y; split; [left; auto|auto]|]. destruct (IH Hh) as (y' & ? & ?). exists y'. split; [right; auto|auto]. }
    destruct X as ([z r] & Hy & E1 & E2). cbn in E1, E2.
    assert (O : In (z, r) res \/ (length res = n /\ forall c', In c' res -> z <= fst c')).
    { destruct NR as [NR|NR]; exact (n_best_or _ _ _ (z, r) NR ltac:(apply in_or_app; auto)). }
    destruct O as [O|O]; [left; exists r; rewrite E1; auto|right; now rewrite E1].
  - right. 
    assert (C : (n <= length (filter (fun c' : Z * B => (fst c <=? fst c')%Z) l1))%nat).
    { rewrite <- LH. clear - F GE. induction F as [|x y hs l1 H F IH]; [cbn; lia|]. cbn. assert (G1 := GE x (or_introl eq_refl)). destruct H as [H _]. rewrite <- H.
      destruct (Z.leb_spec (fst c) (fst x)); [|lia]. cbn. assert (IH' := IH (fun c' Hc' => GE c' (or_intror Hc'))). lia. }
    destruct NR as [NR|NR]; eapply n_best_full; try exact NR; rewrite filter_app, app_length; lia.
Qed.

(** ** rejected words *)
Lemma starts_with_ok : forall acc w, match starts_with acc w with Some t => w = acc ++ t | None => forall t, w <> acc ++ t end.
Proof.
  intros acc. induction acc as [|a acc IH]; intros [|c w]; cbn; auto; try discriminate. destruct (Ascii.eqb_spec a c) as [->|NE].
  - specialize (IH w). destruct (starts_with acc w); [now subst|]. intros t E. inversion E. eapply IH; eauto.
  - intros t E. inversion E. congruence.
Qed.
Lemma wordSatisfies_ok : forall rej w, wordSatisfiesRej rej w = true <-> compatible rej w.
Proof.
  intros rej w. induction rej as [|[acc r] rej IH]; cbn [wordSatisfiesRej]; [split; [intros _ a b []|auto]|].
  pose proof (starts_with_ok acc w) as SW. destruct (starts_with acc w) as [t|].
  - destruct (str_eqb t r) eqn:E.
    + apply str_eqb_true in E. subst. split; [discriminate|]. intro C. destruct (C acc r (or_introl eq_refl)) as (t' & E & N). apply app_inv_head in E. congruence.
    + rewrite IH. split.
      * intros C a b [H|H]; [|auto]. inversion H; subst. exists t. split; auto. intros ->. assert (str_eqb b b = true) by now apply str_eqb_true. congruence.
      * intros C a b H. apply C. right. auto.
  - split; [discriminate|]. intro C. destruct (C acc r (or_introl eq_refl)) as (t & E & _). exfalso. eapply SW; eauto.
Qed.

(** the words of a correction *)
Lemma strip_clean : forall w, clean w -> removeLastBlank w = w.
Proof.
  intros w [N B]. unfold removeLastBlank, lastCharIsBlank. destruct (Nat.ltb_spec 0 (length w)); cbn [andb]; [|reflexivity].
  destruct (Ascii.eqb_spec (nth (length w - 1) w NUL) SP) as [E|NE]; [|reflexivity]. exfalso. apply B. rewrite <- E. apply nth_In. lia.
Qed.

Lemma strip_ext : forall l t, clean l -> exists t', removeLastBlank (l ++ t) = l ++ t' /\ (t = [] -> t' = []).
Proof.
  intros l t C. destruct t as [|c t] using rev_ind; [exists []; rewrite app_nil_r, strip_clean by auto; auto|].
  unfold removeLastBlank. destruct (lastCharIsBlank _).
  - exists t. split; [|intro E; destruct t; discriminate]. rewrite app_assoc, app_length. cbn [length]. rewrite Nat.add_sub, firstn_app, firstn_all, Nat.sub_diag. cbn. apply app_nil_r.
  - exists (t ++ [c]). auto.
Qed.
Lemma strip_last_snoc : forall (l : list str) w, strip_last (l ++ [w]) = l ++ [removeLastBlank w].
Proof.
  intros l w. assert (E : forall x : list str, x <> [] -> strip_last x = removelast x ++ [removeLastBlank (last x [])]) by (intros [|a x] H; [congruence|reflexivity]).
  rewrite E by (destruct l; discriminate). now rewrite removelast_last, last_last.
Qed.
Lemma strip_last_corr : forall (p0 : list str) l t suf, clean l -> (forall w, In w suf -> clean w) ->
  exists t', strip_last (p0 ++ (l ++ t) :: suf) = p0 ++ (l ++ t') :: suf /\ (t = [] -> t' = []).
Proof.
  intros p0 l t suf CL CS. destruct suf as [|w suf] using rev_ind.
  - destruct (strip_ext l t CL) as (t' & E & H). exists t'. split; [|exact H]. rewrite strip_last_snoc, E. reflexivity.
  - exists t. split; [|auto]. replace (p0 ++ (l ++ t) :: suf ++ [w]) with ((p0 ++ (l ++ t) :: suf) ++ [w]) by (rewrite <- app_assoc; reflexivity).
    rewrite strip_last_snoc, strip_clean; [reflexivity|]. apply CS. apply in_or_app. right. left. auto.
Qed.

Lemma map_opt_ok : forall A B (f : A -> option B) (R : A -> B -> Prop) l, (forall x, In x l -> exists y, f x = Some y /\ R x y) -> exists r, map_opt f l = Some r /\ Forall2 R l r.
Proof.
  intros A B f R l. induction l as [|x l IH]; intro H; [exists []; auto|]. destruct (H x (or_introl eq_refl)) as (y & E & Ry). destruct (IH (fun x' Hx => H x' (or_intror Hx))) as (r & Er & F).
  exists (y :: r). cbn. rewrite E, Er. auto.
Qed.
